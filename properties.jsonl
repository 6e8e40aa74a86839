{"id": "C01", "title": "Polynomial::new keeps every coefficient and strips exactly the leading zeros", "statement": "For every coefficient vector, Polynomial::new(v) (and From<Vec>, polynomial!, trim) yields a polynomial whose coefficient of x^d is the same as v's for every d, and whose stored vector is either empty or starts with a non-zero coefficient.", "quantifier": "all coefficient vectors of all lengths over every coefficient type with a zero test", "why_tests_cant": "The input space (vector length x coefficient values) is unbounded; the scan works in blocks of four plus a remainder, so each length residue and each zero-prefix length is a separate case.", "anchors": ["src/polynomial/polynomial.rs: Polynomial::new, trim, first_nonzero_index"]}
{"id": "C02", "title": "degree() is the largest exponent with a non-zero coefficient", "statement": "For each of Polynomial, SparsePolynomial, Monomial, LinearBinomial, QuadraticTrinomial and ArrayPolynomial, degree() returns NegInf exactly when every coefficient is zero (and then is_zero() is true), and otherwise Num(d) where d is the largest exponent whose coefficient is non-zero - even if the stored representation has leading zeros or zero-valued map entries.", "quantifier": "all values of all six representations, including untrimmed ones", "why_tests_cant": "The input space (vector length x coefficient values) is unbounded; untrimmed internal states reachable by arithmetic are easy to miss.", "anchors": ["src/polynomial/polynomial.rs: degree", "src/polynomial/sparsepolynomial.rs: degree", "src/polynomial/monomial.rs: degree", "src/polynomial/binomial.rs: degree", "src/polynomial/trinomial.rs: degree", "src/polynomial/array_polynomial.rs: degree", "src/polynomial/traits.rs: is_zero"]}
{"id": "C03", "title": "Term listing is exactly the non-zero terms in strictly decreasing degree", "statement": "terms_as_vec()/ordered_term_iter() list a pair (c, d) exactly when c is the coefficient of x^d and c is non-zero, every degree at most once, in strictly decreasing order of degree, and listing never panics.", "quantifier": "all values of every representation", "why_tests_cant": "The input space (vector length x coefficient values) is unbounded; completeness and ordering quantify over all degrees at once.", "anchors": ["src/polynomial/polynomial.rs: ordered_term_iter", "src/polynomial/sparsepolynomial.rs: ordered_term_iter", "src/polynomial/monomial.rs: ordered_term_iter", "src/polynomial/binomial.rs: ordered_term_iter", "src/polynomial/trinomial.rs: ordered_term_iter", "src/polynomial/array_polynomial.rs: ordered_term_iter"]}
{"id": "C04", "title": "term_with_degree(d) is the coefficient of x^d for every d", "statement": "term_with_degree(d) returns Term(c, d) with c the coefficient of x^d when it is non-zero and ZeroTerm otherwise, for every usize d, including d beyond the degree, without panicking.", "quantifier": "all values of every representation and every usize degree", "why_tests_cant": "the degree argument ranges over all usize values.", "anchors": ["src/polynomial/polynomial.rs: term_with_deg", "src/polynomial/sparsepolynomial.rs: term_with_degree", "src/polynomial/monomial.rs: term_with_degree", "src/terms.rs: Term::new"]}
{"id": "C05", "title": "Equality is equality of polynomials", "statement": "a == b holds exactly when a and b have equal coefficients at every degree, whatever their stored representation (leading zeros, explicit zero entries, zero monomials of any degree); it is therefore reflexive, symmetric and transitive for coefficient types whose == is.", "quantifier": "all pairs of values of each representation", "why_tests_cant": "The input space (vector length x coefficient values) is unbounded; soundness and completeness of an equality is a statement about all pairs.", "anchors": ["src/polynomial/polynomial.rs: PartialEq", "src/polynomial/sparsepolynomial.rs: PartialEq", "src/polynomial/monomial.rs: PartialEq", "src/polynomial/binomial.rs: PartialEq", "src/polynomial/trinomial.rs: PartialEq", "src/polynomial/array_polynomial.rs: PartialEq"]}
{"id": "C06", "title": "Dense addition adds coefficientwise", "statement": "Whenever a + b (or a += b) on Polynomial returns, its coefficient of x^d is a_d + b_d for every d (exact in Z for overflow-checked integers, modulo 2^w for wrapping ones); it returns exactly when no coefficient sum overflows.", "quantifier": "all pairs of polynomials of any lengths, all integer widths, both overflow modes", "why_tests_cant": "The input space (vector length x coefficient values) is unbounded; alignment depends on the two lengths.", "anchors": ["src/polynomial/polynomial.rs: Add, AddAssign"]}
{"id": "C07", "title": "Dense subtraction and negation are coefficientwise", "statement": "Whenever a - b, a -= b (by value or by reference) or -a returns, its coefficients are a_d - b_d, resp. -a_d, for every d; by-value and by-reference subtraction give the same polynomial.", "quantifier": "all pairs of polynomials of any lengths", "why_tests_cant": "The input space (vector length x coefficient values) is unbounded; three separate code paths must agree for every length relation.", "anchors": ["src/polynomial/polynomial.rs: Sub, SubAssign, Sub<&>, SubAssign<&>, Neg"]}
{"id": "C08", "title": "Dense multiplication is the Cauchy product", "statement": "Whenever a * b (any by-value/by-reference form) or a *= b on Polynomial returns, the coefficient of x^d is the sum over i+j=d of a_i*b_j, for every d; the product is returned whenever at least one factor is non-zero and no arithmetic overflow or capacity limit is hit.", "quantifier": "all pairs of polynomials", "why_tests_cant": "The input space (vector length x coefficient values) is unbounded; convolution has quadratically many terms and skips zero coefficients.", "anchors": ["src/polynomial/polynomial.rs: slice_mul, Mul, MulAssign"]}
{"id": "C09", "title": "Multiplying two zero polynomials", "statement": "The product of the zero polynomial with any polynomial should be the zero polynomial. (The code instead panics when both factors are zero.)", "quantifier": "all polynomials with all-zero coefficients", "why_tests_cant": "tests of products with zero usually zero only one factor; all representations of zero must be covered.", "anchors": ["src/polynomial/polynomial.rs: slice_mul"]}
{"id": "C10", "title": "pow is the iterated product", "statement": "Whenever p.pow(n) returns (Polynomial or SparsePolynomial), it equals the n-fold product of p with itself for every usize n (pow(0) is 1), and the recursion terminates for every n.", "quantifier": "all polynomials and all exponents", "why_tests_cant": "exponentiation by squaring branches on the bits of n; all n must be covered.", "anchors": ["src/polynomial/polynomial.rs: pow", "src/polynomial/sparsepolynomial.rs: pow, borrow_mul"]}
{"id": "C11", "title": "Scalar multiplication and division act on every coefficient", "statement": "p * c, p *= c, p / c, p /= c multiply/divide every coefficient by c (with the coefficient type's own * and /) and change nothing else; dividing by zero panics for integers when p has a stored coefficient.", "quantifier": "all polynomials and scalars, every representation", "why_tests_cant": "The input space (vector length x coefficient values) is unbounded; frame condition over all degrees.", "anchors": ["src/polynomial/polynomial.rs: Mul<N>, MulAssign<N>, Div<N>, DivAssign<N>", "src/polynomial/sparsepolynomial.rs: Mul<N>, Div<N>", "src/polynomial/monomial.rs: Mul<N>, Div<N>", "src/polynomial/binomial.rs: Mul<N>, Div<N>", "src/polynomial/trinomial.rs: Mul<N>, Div<N>"]}
{"id": "C12", "title": "eval computes the value of the polynomial", "statement": "Whenever eval(x) returns, its result is the sum over d of p_d * x^d, for every representation; eval(0) is the constant term; hence evaluation commutes with +, - and * of polynomials, and two representations of the same polynomial evaluate to the same value.", "quantifier": "all polynomials, all points, every representation, every integer type and overflow mode", "why_tests_cant": "The input space (vector length x coefficient values) is unbounded; Horner's rule, per-term powers and closed forms must agree at all points.", "anchors": ["src/polynomial/polynomial.rs: eval", "src/polynomial/sparsepolynomial.rs: eval", "src/polynomial/monomial.rs: eval", "src/polynomial/binomial.rs: eval", "src/polynomial/trinomial.rs: eval", "src/polynomial/array_polynomial.rs: eval"]}
{"id": "C13", "title": "derivative is the formal derivative", "statement": "Whenever derivative() returns, its coefficient of x^d is (d+1)*p_(d+1) for every d, for every representation; on overflow-checked types with enough range it returns unless degree+1 (dense) / the degree (sparse) is not representable.", "quantifier": "all polynomials of every representation", "why_tests_cant": "The input space (vector length x coefficient values) is unbounded; the running degree counter must stay aligned for all lengths.", "anchors": ["src/polynomial/polynomial.rs: derivative", "src/polynomial/sparsepolynomial.rs: derivative", "src/polynomial/monomial.rs: derivative", "src/polynomial/binomial.rs: derivative", "src/polynomial/trinomial.rs: derivative", "src/polynomial/array_polynomial.rs: derivative"]}
{"id": "C14", "title": "integral is the formal antiderivative with zero constant", "statement": "Whenever integral() returns, its coefficient of x^(d+1) is p_d/(d+1) (the coefficient type's own division) and its constant is zero; with exact division the derivative of the integral is the original polynomial; Integral::eval(a,b) is F(b)-F(a); replace_c(c) changes only the constant term.", "quantifier": "all polynomials of every representation, all bounds a, b, all constants c", "why_tests_cant": "The input space (vector length x coefficient values) is unbounded; fundamental-theorem style identities quantify over all polynomials.", "anchors": ["src/polynomial/polynomial.rs: integral", "src/polynomial/sparsepolynomial.rs: integral", "src/polynomial/monomial.rs: integral", "src/polynomial/binomial.rs: integral", "src/polynomial/trinomial.rs: integral", "src/polynomial/array_polynomial.rs: integral", "src/polynomial/integral.rs: eval, replace_c"]}
{"id": "C15", "title": "Shifts multiply/divide by powers of x", "statement": "p << k has coefficient p_(d-k) at d>=k and 0 below (k >= 0), p >> k has coefficient p_(d+k); a negative shift is the opposite shift by the absolute value; (p << k) >> k == p; the operator and the assigning form agree. These hold whenever the operation returns.", "quantifier": "all polynomials of every representation and all shift amounts", "why_tests_cant": "The input space (vector length x coefficient values) is unbounded; boundary k = length and leading zeros matter.", "anchors": ["src/polynomial/polynomial.rs: Shl, Shr, ShlAssign, ShrAssign", "src/polynomial/sparsepolynomial.rs: Shl, Shr", "src/polynomial/monomial.rs: Shl, Shr", "src/polynomial/binomial.rs: Shr<u32>", "src/polynomial/trinomial.rs: Shr<u32>"]}
{"id": "C16", "title": "Right shift returns for every polynomial", "statement": "p >> k returns (does not panic) for every polynomial p and every non-negative k. (For Polynomial the code panics when leading zero coefficients outnumber what is left after the shift, although >>= returns.)", "quantifier": "all polynomials, including untrimmed results of subtraction", "why_tests_cant": "requires a state with stored leading zeros, which direct construction never yields.", "anchors": ["src/polynomial/polynomial.rs: Shr"]}
{"id": "C17", "title": "Shift by i32::MIN", "statement": "Shifting by any i32 amount returns a polynomial or panics cleanly; in particular shifting by i32::MIN. (The code negates the amount, so it panics with overflow checks and recurses forever without.)", "quantifier": "all polynomials, the extreme shift amount, both overflow modes", "why_tests_cant": "non-termination is not observable by a finite test.", "anchors": ["src/polynomial/polynomial.rs: Shl, Shr", "src/polynomial/sparsepolynomial.rs: Shl, Shr", "src/polynomial/monomial.rs: Shl, Shr"]}
{"id": "C18", "title": "Dense div_mod is Euclidean division whenever it returns", "statement": "If Polynomial::div_mod(p, d) returns (q, r) for an integer or exact-division coefficient type, then p = q*d + r coefficientwise and r is zero or has degree smaller than d's; with exact division (a field) it returns for every p and every non-zero d, within deg p - deg d + 1 rounds; floor_div is its first component.", "quantifier": "all dividends, all non-zero divisors, all integer types and modes", "why_tests_cant": "The input space (vector length x coefficient values) is unbounded; the invariant must survive every round of the loop; termination is for all inputs.", "anchors": ["src/polynomial/polynomial.rs: div_mod, floor_div, vec_sub_w_scale, first_term"]}
{"id": "C19", "title": "Dense div_mod returns for every non-zero divisor", "statement": "div_mod terminates for every dividend and non-zero divisor over i32. (It does not: if a leading coefficient is not divisible by the divisor's leading coefficient the loop makes no progress and never returns.)", "quantifier": "all integer polynomials", "why_tests_cant": "non-termination is not observable by a finite test.", "anchors": ["src/polynomial/polynomial.rs: div_mod"]}
{"id": "C20", "title": "Dense % computes the remainder", "statement": "p % d returns the remainder of Euclidean division, as div_mod does, and p %= d agrees. (For deg p >= deg d the % operator re-reads the unmodified dividend and never returns; %= is correct whenever it returns.)", "quantifier": "all dividends and non-zero divisors", "why_tests_cant": "non-termination for all inputs with deg p >= deg d.", "anchors": ["src/polynomial/polynomial.rs: Rem, RemAssign"]}
{"id": "C21", "title": "Division by the zero polynomial panics", "statement": "div_mod, floor_div, % and %= panic for every dividend exactly when the divisor has only zero coefficients (otherwise the only other outcomes are a result, an arithmetic panic of the coefficient type, or non-termination), for dense and sparse polynomials.", "quantifier": "all dividends, all representations of the zero divisor", "why_tests_cant": "every representation of zero (any length of zeros, any zero-valued entries) must be covered.", "anchors": ["src/polynomial/polynomial.rs: div_mod, Rem, RemAssign", "src/polynomial/sparsepolynomial.rs: div_mod, Rem, RemAssign"]}
{"id": "C22", "title": "Sparse div_mod is Euclidean division", "statement": "SparsePolynomial::div_mod(p, d), % and %= compute quotient and remainder. (The code never shifts the divisor: it is correct when deg p <= deg d and division is exact, and never returns a result when deg p > deg d.)", "quantifier": "all dividends and non-zero divisors", "why_tests_cant": "non-termination for all inputs with deg p > deg d.", "anchors": ["src/polynomial/sparsepolynomial.rs: div_mod, Rem, RemAssign, map_sub_w_scale"]}
{"id": "C23", "title": "Sparse addition, subtraction, negation are coefficientwise", "statement": "Whenever a + b, a += b, a - b, a -= b, -a on SparsePolynomial (including subtracting a dense Polynomial) returns, the coefficient at every degree is the sum/difference/negation of the operands' coefficients.", "quantifier": "all pairs of sparse polynomials", "why_tests_cant": "The input space (vector length x coefficient values) is unbounded; present/absent key combinations at every degree.", "anchors": ["src/polynomial/sparsepolynomial.rs: Add, AddAssign, Sub, SubAssign, Neg, Sub<Polynomial>"]}
{"id": "C24", "title": "Sparse multiplication is the Cauchy product", "statement": "Whenever a * b, a *= b or borrow_mul on SparsePolynomial returns and the sum of the degrees fits in usize, the coefficient of x^d is the sum over i+j=d of a_i*b_j for every d; dense and sparse products agree.", "quantifier": "all pairs of sparse polynomials", "why_tests_cant": "The input space (vector length x coefficient values) is unbounded; collisions of i+j across entries.", "anchors": ["src/polynomial/sparsepolynomial.rs: map_mul, Mul, MulAssign, borrow_mul"]}
{"id": "C25", "title": "Dense and sparse construction agree", "statement": "SparsePolynomial::from(v) and Polynomial::new(v) have the same coefficient at every degree, list the same terms, and from_terms sums the given terms for both, so that repeated degrees accumulate.", "quantifier": "all coefficient vectors and all term lists", "why_tests_cant": "The input space (vector length x coefficient values) is unbounded; equivalence of two representations over all inputs.", "anchors": ["src/polynomial/sparsepolynomial.rs: From<Vec>, from_terms", "src/polynomial/polynomial.rs: From<Vec>, from_terms"]}
{"id": "C26", "title": "Any history of term additions and subtractions is the sum of the terms", "statement": "After any sequence of add_term/try_add_term/try_sub_term/set_to_zero calls on a Polynomial or SparsePolynomial in which no call panics, the coefficient at every degree is the net sum of the successful terms since the last reset; a call returning Err leaves the polynomial unchanged.", "quantifier": "all operation histories of any length", "why_tests_cant": "histories are unbounded.", "anchors": ["src/polynomial/polynomial.rs: add_term, try_add_term, try_sub_term, set_to_zero", "src/polynomial/sparsepolynomial.rs: add_term, try_add_term, try_sub_term, set_to_zero"]}
{"id": "C27", "title": "Fixed-shape try_add_term/try_sub_term succeed exactly when representable, and are atomic", "statement": "On Monomial, LinearBinomial, QuadraticTrinomial and ArrayPolynomial, try_add_term/try_sub_term return Ok exactly when the degree is allowed (binomial <=1, trinomial <=2, array <SIZE; monomial: zero or same degree), in which case exactly that coefficient changes by +-c; otherwise Err and self is unchanged.", "quantifier": "all values, all coefficients, all usize degrees", "why_tests_cant": "degree ranges over all usize; frame condition over all coefficients.", "anchors": ["src/polynomial/monomial.rs: try_add_term", "src/polynomial/binomial.rs: try_add_term", "src/polynomial/trinomial.rs: try_add_term", "src/polynomial/array_polynomial.rs: try_add_term"]}
{"id": "C28", "title": "Adding a zero term always succeeds", "statement": "Adding a term with coefficient zero changes nothing and returns Ok for every representation and degree. (Monomial, LinearBinomial, QuadraticTrinomial return Err for a zero term of another degree; a dense unsigned Polynomial returns CanNotNegate when subtracting zero beyond its length while the sparse one returns Ok.)", "quantifier": "all values and all degrees", "why_tests_cant": "requires quantifying over all degrees outside the stored range.", "anchors": ["src/polynomial/monomial.rs: try_add_term", "src/polynomial/binomial.rs: try_add_term", "src/polynomial/polynomial.rs: try_sub_term", "src/polynomial/sparsepolynomial.rs: try_sub_term"]}
{"id": "C29", "title": "Unsigned subtraction reports CanNotNegate", "statement": "try_sub_term on an unsigned polynomial returns Err(CanNotNegate), leaving it unchanged, when the result would have a negative coefficient. (It does so only if no coefficient is stored at that degree; otherwise the subtraction panics with overflow checks and wraps without.)", "quantifier": "all unsigned polynomials and terms", "why_tests_cant": "needs all coefficient pairs.", "anchors": ["src/polynomial/polynomial.rs: try_sub_term", "src/polynomial/sparsepolynomial.rs: try_sub_term", "src/numerics.rs: CanNegate"]}
{"id": "C30", "title": "add_poly / sub_poly / mul_poly_vec accumulate into any sink", "statement": "add_poly(p, sink) adds, sub_poly subtracts, and mul_poly_vec adds the product of p and the given terms, to sink's coefficients at every degree; on Err, exactly the terms before the failing one have been applied; poly_add!/poly_sub! combine any number of operands the same way, and poly_add! into a Polynomial never errs.", "quantifier": "all polynomials, all sinks, any number of operands", "why_tests_cant": "The input space (vector length x coefficient values) is unbounded; arbitrary iterators and sinks.", "anchors": ["src/polynomial/poly_math.rs: add_poly, sub_poly, mul_poly_vec, poly_add!, poly_sub!"]}
{"id": "C31", "title": "poly_sub! never loses terms", "statement": "poly_sub!(a, b, ...) returns a - (b + ...). (For unsigned types the CanNotNegate error is discarded and a polynomial that is not the difference is returned.)", "quantifier": "all operands", "why_tests_cant": "needs unsigned operands where a later operand has larger degree.", "anchors": ["src/polynomial/poly_math.rs: poly_sub!", "src/polynomial/polynomial.rs: try_sub_term"]}
{"id": "C32", "title": "Display then parse is the identity", "statement": "For every polynomial over every built-in integer type whose non-leading coefficients are not the minimum of a signed type, formatting succeeds and parsing the text back gives an equal polynomial (Polynomial, SparsePolynomial, Monomial, LinearBinomial, QuadraticTrinomial).", "quantifier": "all polynomials over all 12 integer types, all degrees", "why_tests_cant": "The input space (vector length x coefficient values) is unbounded; round trips quantify over all printed forms.", "anchors": ["src/strings.rs: fmt_poly!, poly_from_str!, write_leading_term, write_trailing_term", "src/terms.rs: Term::from_str, TermTokenizer", "src/polynomial/monomial.rs: Display"]}
{"id": "C33", "title": "Display handles the minimum of a signed type", "statement": "Display succeeds and round-trips for every integer polynomial. (A non-leading coefficient equal to the type's minimum panics with overflow checks; without them it prints a double sign that cannot be parsed back.)", "quantifier": "all signed integer polynomials", "why_tests_cant": "a single extreme value in non-leading position.", "anchors": ["src/strings.rs: write_trailing_term", "src/numerics.rs: Abs"]}
{"id": "C34", "title": "Tokenising partitions the input", "statement": "For every string the tokenizer's ranges are consecutive, start at 0, end at the string's byte length, lie on character boundaries (so slicing never panics), and every token after the first starts with '+' or '-' and contains no other sign after its first non-blank character; only the empty string has no token.", "quantifier": "all UTF-8 strings of any length", "why_tests_cant": "all strings, including multi-byte characters next to signs.", "anchors": ["src/terms.rs: TermTokenizer"]}
{"id": "C35", "title": "Parsing sums the parsed terms", "statement": "from_str(s) returns Ok exactly when s is non-empty and every token parses as a term (and, for bounded types, every addition succeeds); the result's coefficient at d is the sum of the coefficients of the parsed terms of degree d, so repeated degrees accumulate and order is irrelevant for Polynomial and SparsePolynomial; the first failing token determines the error.", "quantifier": "all strings", "why_tests_cant": "The input space (vector length x coefficient values) is unbounded; all strings and token orders.", "anchors": ["src/strings.rs: poly_from_str!", "src/terms.rs: Term::from_str"]}
{"id": "C36", "title": "Term grammar", "statement": "Term::from_str accepts [sign][digits]['x'['^' digits]] with spaces, commas and underscores ignored anywhere, giving coefficient (1 or -1 if omitted before x) and degree (0 without x, 1 if omitted after x); it never panics; ignored characters never change the result.", "quantifier": "all strings, every coefficient parser", "why_tests_cant": "all interleavings of ignorable characters.", "anchors": ["src/terms.rs: Term::from_str"]}
{"id": "C37", "title": "An exponent needs a caret", "statement": "Digits after x without '^' are rejected, and digits before '^' are not merged with those after it. (The code accepts 2x3 as 2x^3 and reads x5^2 as x^52; DegreeCouldNotBeParsed is never reported.)", "quantifier": "all strings", "why_tests_cant": "acceptance of malformed strings is a statement about a language.", "anchors": ["src/terms.rs: Term::from_str", "src/err.rs: TermFromStringError"]}
{"id": "C38", "title": "Parsing never panics", "statement": "from_str returns Ok or Err for every string. (For SparsePolynomial it does, up to coefficient overflow; for Polynomial a degree of usize::MAX or beyond the allocation limit panics.)", "quantifier": "all strings", "why_tests_cant": "the panicking degrees are at the extreme of usize.", "anchors": ["src/strings.rs: poly_from_str!", "src/polynomial/polynomial.rs: add_term"]}
{"id": "C39", "title": "Quadratic roots are roots", "statement": "For real coefficients with a non-zero and exact arithmetic, QuadraticTrinomial::roots() returns two real numbers that are roots (equal iff the discriminant is zero) when the discriminant is >= 0, and two conjugate non-real complex roots when it is < 0; their sum is -b/a and product c/a.", "quantifier": "all real a != 0, b, c", "why_tests_cant": "all real coefficients.", "anchors": ["src/polynomial/find_roots.rs: trinomial_roots, discriminant_trinomial", "src/polynomial/trinomial.rs: roots, discriminant"]}
{"id": "C40", "title": "Quadratic roots are ordered largest first", "statement": "As documented, roots() lists the largest root first. (True for a > 0; for a < 0 the smallest comes first.)", "quantifier": "all real a != 0, b, c with positive discriminant", "why_tests_cant": "all sign combinations of coefficients.", "anchors": ["src/polynomial/trinomial.rs: roots doc comment", "src/polynomial/find_roots.rs: trinomial_roots"]}
{"id": "C41", "title": "Integer quadratic roots", "statement": "Over an integer type, if the quadratic has two integer roots, roots() returns them. (False: -b/2a and sqrt/2a are truncated separately, so x^2+x-6 gives 2 and -2; it is true whenever 2a divides b.)", "quantifier": "all integer quadratics with integer roots", "why_tests_cant": "needs odd b; tests only use even b.", "anchors": ["src/polynomial/find_roots.rs: trinomial_roots"]}
{"id": "C42", "title": "Quadratic factorisations multiply back", "statement": "real_factors() returns Some((a,f,g)) exactly when the discriminant is >= 0, and a*f*g is the original polynomial; complex_factors() always multiplies back to the original. (The latter is false for negative discriminant whenever b != 0: the factors are x+r instead of x-r.)", "quantifier": "all real a != 0, b, c", "why_tests_cant": "all coefficients.", "anchors": ["src/polynomial/trinomial.rs: real_factors, complex_factors"]}
{"id": "C43", "title": "Linear root", "statement": "LinearBinomial::root() is InfiniteRoots iff both coefficients are zero, NoRoots iff only the constant is non-zero, otherwise OneRealRoot(r) with a*r+b=0 under exact division; Monomial::root() classifies likewise (0 is the only root of a non-constant monomial).", "quantifier": "all coefficients", "why_tests_cant": "all coefficients.", "anchors": ["src/polynomial/binomial.rs: root", "src/polynomial/monomial.rs: root"]}
{"id": "C44", "title": "Cubic roots are roots", "statement": "For every real cubic, the roots returned for degree-3 polynomials are roots. (True when at most one real root is simple-and-alone or roots repeat, i.e. q^2+(r-p^2)^3 >= 0; false for every cubic with three distinct real roots whose inflection point is not a root.)", "quantifier": "all real cubics with a != 0", "why_tests_cant": "the failing region is an open set but tests use a triple root.", "anchors": ["src/polynomial/find_roots.rs: cubic_roots, find_roots_special"]}
{"id": "C45", "title": "Root finding never hits unreachable code for degree <= 3 and classifies constants", "statement": "roots() on any Polynomial/SparsePolynomial of degree <= 3: zero polynomial -> InfiniteRoots, non-zero constant -> NoRoots, a single non-constant term -> {0}; the pattern match covers every possible list of non-zero terms, so no unreachable!() is reached.", "quantifier": "all term lists with strictly decreasing degrees", "why_tests_cant": "all shapes of sparse cubic and quadratic.", "anchors": ["src/polynomial/find_roots.rs: find_roots_special, find_roots"]}
{"id": "C46", "title": "Root finding terminates and is sound relative to the Sturm solver", "statement": "For degree >= 4 the deflation loop terminates whatever the solver returns (at most deg p passes); with exact arithmetic and a solver returning only distinct genuine roots, every root reported is a root of p with multiplicity accounted for (the product of (x-r) divides p), and ManyRealRoots lists exactly deg p roots.", "quantifier": "all polynomials, all solver behaviours", "why_tests_cant": "the external solver can return anything; loop termination is for all behaviours.", "anchors": ["src/polynomial/find_roots.rs: find_roots, div, normalize"]}
{"id": "C47", "title": "Integer abs_sqrt is the floor square root", "statement": "For every unsigned width and every value n, abs_sqrt(n) terminates, never overflows and returns the largest r with r*r <= n; for signed n it is the floor square root of |n| for every n except the minimum under overflow checks.", "quantifier": "all values of all 12 integer types (up to 2^128)", "why_tests_cant": "2^128 inputs; Newton iteration and a possibly overflowing r*r.", "anchors": ["src/numerics.rs: AbsSqrt"]}
{"id": "C48", "title": "usize conversions are exact or rejected", "statement": "try_from_usize_cont(n)/try_from_usize_exact(n) return Ok(v) only if v represents n exactly, and for integer types exactly when n fits; for f32/f64 cont all smaller integers are representable too. (False for f32/f64 exact at n = usize::MAX: the saturating cast back makes an inexact value pass.)", "quantifier": "all usize values, all 12 numeric types", "why_tests_cant": "2^64 inputs per type.", "anchors": ["src/numerics.rs: TryFromUsizeContinuous, TryFromUsizeExact"]}
{"id": "C49", "title": "Upcasts preserve the polynomial", "statement": "For every pair in the upcast table, converting a Polynomial, SparsePolynomial, Monomial, LinearBinomial or QuadraticTrinomial preserves the mathematical value of every coefficient at every degree, hence degree, terms and equality.", "quantifier": "all 41 conversions, all values", "why_tests_cant": "value ranges up to 2^64.", "anchors": ["src/macros.rs: upcast!", "src/polynomial/polynomial.rs: from_poly_a_to_b", "src/polynomial/sparsepolynomial.rs: from_sparse_a_to_b", "src/polynomial/monomial.rs: from_monomial_a_to_b", "src/polynomial/binomial.rs: from_binomial_a_to_b", "src/polynomial/trinomial.rs: from_trinomial_a_to_b"]}
{"id": "C50", "title": "Fixed-shape arithmetic agrees with the general polynomial", "statement": "Monomial, LinearBinomial and QuadraticTrinomial +, -, negation, *, scalar operations, pow and shifts act coefficientwise as the corresponding polynomial operations, whenever they return.", "quantifier": "all values", "why_tests_cant": "The input space (vector length x coefficient values) is unbounded; agreement over all coefficients and degrees.", "anchors": ["src/polynomial/monomial.rs: Mul, Neg, pow, Shl, Shr", "src/polynomial/binomial.rs: Add, Sub, Neg, Shr", "src/polynomial/trinomial.rs: Add, Sub, Neg, Shr"]}
{"id": "C51", "title": "Per-term power uses the full exponent", "statement": "Evaluating a Monomial/SparsePolynomial raises the point to the term's degree, and Monomial::pow raises to the given exponent, for every usize. (The exponent is truncated to 32 bits: x^(2^32) evaluated at 0 gives 1.)", "quantifier": "all usize degrees", "why_tests_cant": "degrees above 2^32 are never tested.", "anchors": ["src/numerics.rs: PowUsize", "src/polynomial/sparsepolynomial.rs: eval", "src/polynomial/monomial.rs: eval, pow"]}
{"id": "C52", "title": "Degree overflow is detected", "statement": "When the degree of a product, shift or power exceeds usize::MAX the operation panics rather than returning a wrong polynomial. (Only with overflow checks; without them the degree wraps.)", "quantifier": "all sparse polynomials and monomials, both modes", "why_tests_cant": "extreme degrees.", "anchors": ["src/polynomial/sparsepolynomial.rs: map_mul, Shl", "src/polynomial/monomial.rs: Mul, Shl, pow"]}
{"id": "C53", "title": "Integral display", "statement": "An Integral prints as C when its polynomial is zero and otherwise as the polynomial's own text followed by ' + C'.", "quantifier": "all integrals", "why_tests_cant": "all polynomials.", "anchors": ["src/polynomial/integral.rs: Display"]}
{"id": "C54", "title": "Array polynomials list their terms", "statement": "ArrayPolynomial<N, SIZE>::terms_as_vec lists the non-zero terms with their degrees for every SIZE. (False for every SIZE other than 2: the degree is computed as 1 - index.)", "quantifier": "all sizes and coefficients", "why_tests_cant": "const-generic size ranges over all usize.", "anchors": ["src/polynomial/array_polynomial.rs: ordered_term_iter"]}
{"id": "C55", "title": "Floating-point division of polynomials terminates and returns the quotient", "statement": "For f64, div_mod returns for every pair of finite polynomials with a non-zero divisor. (False: 1.0x divided by 49.0x never returns because rounding leaves a residue in the leading coefficient, and the quotient entry is overwritten by later rounds; the smallest float times x divided by 2.0x never returns because the quotient underflows to zero. It does return for divisors with leading coefficient 1, 1/2, 1/4, ... or their negatives when nothing overflows.)", "quantifier": "all finite f64 polynomials", "why_tests_cant": "non-termination; depends on rounding.", "anchors": ["src/polynomial/polynomial.rs: div_mod"]}
{"id": "C56", "title": "Derivative panics only as documented", "statement": "Polynomial::derivative panics only if the coefficient type cannot represent the numbers 0 to the degree. (It also requires degree+1 to be representable: an i8 polynomial of degree 127 panics although 127 fits.)", "quantifier": "all polynomials and coefficient types", "why_tests_cant": "only at the exact boundary of each type.", "anchors": ["src/polynomial/polynomial.rs: derivative"]}
{"id": "C57", "title": "Computing then converting equals converting then computing", "statement": "For every conversion from an integer type, if an operation on polynomials of the narrower type returns in a debug build, then the same operation on the converted polynomials returns, in debug and release builds, a result with the same mathematical coefficients (or exhausts the address space because its coefficients are larger). This covers construction, listing, equality, +, -, negation, *, scalar *, powers, shifts, evaluation and derivatives, and between integer types also division, remainder, integrals and per-term powers. (Not so for f32 to f64, for release-build sources, or for division against a floating-point target.)", "quantifier": "all integer conversions of the table, all polynomials, all operations", "why_tests_cant": "pairs of runs over all inputs of two types.", "anchors": ["src/macros.rs: upcast!", "src/polynomial/polynomial.rs: all operators", "src/polynomial/sparsepolynomial.rs: all operators", "src/polynomial/monomial.rs: all operators", "src/polynomial/binomial.rs: all operators", "src/polynomial/trinomial.rs: all operators"]}
{"id": "C58", "title": "A release build returns what a debug build returns", "statement": "For every primitive coefficient type and every modelled operation, whenever the debug build (overflow checks on) returns, the release build returns the very same value, including parsed values, parse errors, printed text and roots. (Not conversely: a release build also returns, wrapped, where a debug build panics.)", "quantifier": "all operations, all inputs, all 14 number types", "why_tests_cant": "two builds over all inputs; overflow checks also guard the library's own usize arithmetic.", "anchors": ["src/polynomial/polynomial.rs: all operators", "src/polynomial/sparsepolynomial.rs: all operators", "src/polynomial/monomial.rs", "src/polynomial/binomial.rs", "src/polynomial/trinomial.rs", "src/polynomial/array_polynomial.rs", "src/polynomial/find_roots.rs", "src/strings.rs"]}
{"id": "C59", "title": "Whole-number floats compute exactly", "statement": "When the coefficients (and the point) of floating-point polynomials are whole numbers and the magnitudes of the coefficients, of the result, and of the sums of absolute products forming it stay within 2^24 (f32) or 2^53 (f64), then construction, degree, equality, +, -, negation, scalar *, *, powers, evaluation and derivatives return, with the exact whole-number result: rounding never intervenes. (Beyond that bound it does: 2^24 + 1 is 2^24 in f32. Evaluation of Monomial and SparsePolynomial is not covered, because powi is unspecified.)", "quantifier": "all f32/f64 polynomials with integer coefficients, any degree", "why_tests_cant": "infinitely many polynomials; depends on IEEE rounding of every intermediate value.", "anchors": ["src/polynomial/polynomial.rs: all operators", "src/polynomial/sparsepolynomial.rs: all operators", "src/polynomial/binomial.rs: eval", "src/polynomial/trinomial.rs: eval", "src/polynomial/array_polynomial.rs: eval"]}
{"id": "C60", "title": "Text is independent of the integer width", "statement": "A polynomial over an integer type that prints, prints the same text after conversion to a wider integer type; text that parses as a polynomial over an integer type parses as the same polynomial over every wider one. (Not conversely: a wider type accepts more text.)", "quantifier": "all strings, all polynomials, all integer conversions", "why_tests_cant": "unbounded strings and value ranges.", "anchors": ["src/strings.rs", "src/polynomial/polynomial.rs: FromStr, Display", "src/macros.rs: upcast!"]}
{"id": "C61", "title": "A magnitude bound rules out overflow panics", "statement": "With overflow checks on, multiplication never panics if the sums of absolute products stay within the type's maximum; pow never panics if the sum of absolute coefficients, to that power, does; evaluation never panics if the polynomial of absolute coefficients at the absolute point does. Each then returns the exact result. For Monomial::pow the bound is exact. (Not conversely: results can be in range although the bound is exceeded.)", "quantifier": "all polynomials, exponents and points of all 12 integer types", "why_tests_cant": "every intermediate value of every algorithm must stay in range, for all inputs.", "anchors": ["src/polynomial/polynomial.rs: Mul, pow, eval", "src/polynomial/sparsepolynomial.rs: Mul, pow, eval", "src/polynomial/monomial.rs: pow, eval", "src/polynomial/binomial.rs: eval", "src/polynomial/trinomial.rs: eval"]}
{"id": "C62", "title": "The laws of algebra and calculus hold through the API", "statement": "A program composed of any number of +, -, negation, *, scalar *, pow, derivative and shift calls on Polynomials or SparsePolynomials, if it returns, returns the polynomial that its formula denotes; so the two types agree, and two programs related by a law of commutative rings, powers, derivatives (sum, product and power rule) or shifts give results that compare equal. Without overflow checks the coefficients are the exact ones modulo 2^bits. (For sparse polynomials in release builds, degrees must not wrap.)", "quantifier": "all programs, all operands, all coefficient types obeying the ring laws", "why_tests_cant": "arbitrarily long compositions.", "anchors": ["src/polynomial/polynomial.rs: all operators, ==", "src/polynomial/sparsepolynomial.rs: all operators, =="]}
{"id": "C63", "title": "Evaluation is a homomorphism for whole programs", "statement": "Evaluating the result of a program of +, -, negation, *, scalar *, pow and left shifts at a point gives the value obtained by doing the corresponding scalar arithmetic on the values of the operands at that point, whenever both return; without overflow checks, modulo 2^bits.", "quantifier": "all programs, operands and points", "why_tests_cant": "arbitrarily long compositions.", "anchors": ["src/polynomial/polynomial.rs: eval and operators", "src/polynomial/sparsepolynomial.rs: eval and operators"]}
{"id": "C64", "title": "Float sums, multiples, derivatives and integrals round once per coefficient", "statement": "For f32 and f64 polynomials of any length, each coefficient of a sum, difference, negation, scalar product or quotient, derivative or integral is the result of one IEEE operation on the corresponding coefficients (missing ones being 0; zeros of either sign identified), whatever these are, infinities and NaN included. So with finite coefficients each is the exact coefficient rounded to nearest, ties to even, or an infinity exactly when that overflows. Derivative and integral: for up to 2^24 (f32) or 2^52 (f64) coefficients.", "quantifier": "all f32/f64 polynomials, dense and sparse", "why_tests_cant": "all bit patterns, all lengths and all pairs of lengths.", "anchors": ["src/polynomial/polynomial.rs: Add, Sub, Neg, Mul<N>, Div<N>, derivative, integral", "src/polynomial/sparsepolynomial.rs: Add, Sub, Neg, Mul<N>, Div<N>"]}
{"id": "C65", "title": "Rounding error of float evaluation is bounded", "statement": "If Polynomial::eval of n+1 float coefficients at a finite point returns a finite value, it differs from the exact value by at most ((1+u)^(2n) - 1) times the polynomial of absolute coefficients at the absolute point, plus the underflow term; u is 2^-24 or 2^-53. It is finite whenever the sum of the magnitudes is within range. Linear and quadratic shapes have the analogous bounds with 2 and 4 roundings.", "quantifier": "all f32/f64 polynomials and finite points", "why_tests_cant": "a bound on the rounding of every intermediate value, for all inputs and degrees.", "anchors": ["src/polynomial/polynomial.rs: eval", "src/polynomial/binomial.rs: eval", "src/polynomial/trinomial.rs: eval"]}
{"id": "C66", "title": "Rounding error of float products is bounded", "statement": "Every finite coefficient of the product of two float polynomials differs from the exact one by at most ((1+u)^n - 1) times the sum of the absolute products forming it plus n(1+u)^(n-1) half-subnormals, where n is the smaller of the two numbers of coefficients; dense and sparse. Dense multiplication returns unless both factors are zero or the result does not fit a vector.", "quantifier": "all f32/f64 polynomials", "why_tests_cant": "a bound on accumulated rounding for all inputs and degrees.", "anchors": ["src/polynomial/polynomial.rs: Mul", "src/polynomial/sparsepolynomial.rs: Mul"]}
{"id": "C67", "title": "Laws of algebra on float polynomials", "statement": "Adding float polynomials gives the very same polynomial in either order, NaN and infinities included, and the two orders of a product differ by no more than the rounding bound. (Products do not commute exactly, sums do not associate, multiplication does not distribute, and the value of a sum is not the rounded sum of the values.)", "quantifier": "all f32/f64 polynomials", "why_tests_cant": "relational over all inputs; depends on the order in which the code accumulates.", "anchors": ["src/polynomial/polynomial.rs: Add, Mul, eval", "src/polynomial/sparsepolynomial.rs: Add"]}
{"id": "C68", "title": "The root of a float linear polynomial is correctly rounded", "statement": "LinearBinomial::root of ax + b over f32 or f64, a not zero and |b/a| within the largest finite float, returns exactly one real root, the float nearest to -b/a. With a = 0 (of either sign) it answers no roots or infinitely many according to b.", "quantifier": "all finite f32/f64 coefficients", "why_tests_cant": "all bit patterns.", "anchors": ["src/polynomial/binomial.rs: root", "src/roots.rs"]}
{"id": "C69", "title": "Float quadratics with whole-number coefficients are classified correctly", "statement": "When the coefficients of a float quadratic are whole numbers and 2a, b^2, 4ac and b^2 - 4ac are at most 2^24 (f32) or 2^53 (f64) in magnitude, roots() reports a double root, two distinct real roots or a complex-conjugate pair with non-zero imaginary part, finite if a is not 0, according to the sign of the exact discriminant; and when the roots are whole numbers it returns them exactly.", "quantifier": "all whole-number f32/f64 quadratics in range", "why_tests_cant": "all triples of coefficients; rounding in every intermediate value.", "anchors": ["src/polynomial/trinomial.rs: roots", "src/numerics.rs: abs_sqrt"]}
{"id": "C70", "title": "Float quadratic roots have small residuals", "statement": "For every float quadratic with coefficients that are zero or of magnitude from 2^-50 to 2^50 (f32) or 2^-480 to 2^480 (f64), a not zero, TrinomialRoots and Polynomial::roots return finite roots, real or complex, whose residual satisfies |a||p(root)| <= 4u(b^2 + 4|ac|), u = 2^-24 or 2^-53; the real/complex answer is the right one unless the discriminant is within that tolerance of zero. (It does not follow that roots are relatively accurate: of x^2 + 2^k x + 1 one returned root is 0 for every large k. Outside the range, both roots can be infinite.)", "quantifier": "all f32/f64 quadratics in the stated exponent range", "why_tests_cant": "all bit patterns; rounding analysis of every intermediate value.", "anchors": ["src/polynomial/trinomial.rs: roots", "src/polynomial/polynomial.rs: roots", "src/numerics.rs: abs_sqrt"]}
{"id": "C71", "title": "Derivatives are slopes, integrals are areas", "statement": "Over exact real arithmetic, evaluating the derivative of a polynomial at x gives the slope at x of the function that evaluation of the polynomial defines (the limit of difference quotients), and evaluating its integral between a and b gives the Riemann integral of that function, for a above b too; for all representations.", "quantifier": "all polynomials, all real points", "why_tests_cant": "a limit and an integral over uncountably many points.", "anchors": ["src/polynomial/polynomial.rs: derivative, integral", "src/polynomial/sparsepolynomial.rs: derivative, integral", "src/polynomial/monomial.rs", "src/polynomial/binomial.rs", "src/polynomial/trinomial.rs", "src/polynomial/array_polynomial.rs", "src/polynomial/integral.rs"]}
{"id": "C72", "title": "Degree, term listing, lookup, comparison and shifting need no laws of the coefficients", "statement": "For every coefficient type whose zero() is zero - floats with NaN, infinities and negative zero included, whatever its arithmetic does - degree() is the largest exponent whose coefficient is not zero, the ordered terms are exactly the non-zero coefficients in decreasing degree, term_with_degree(d) is the coefficient of x^d, construction and shifts move coefficients without altering them, trim() removes zero coefficients and nothing else, and == compares coefficient by coefficient.", "quantifier": "all polynomials of all representations over every coefficient type", "why_tests_cant": "all coefficient types, including those where == is not equality.", "anchors": ["src/polynomial/polynomial.rs", "src/polynomial/sparsepolynomial.rs", "src/polynomial/monomial.rs", "src/polynomial/binomial.rs", "src/polynomial/trinomial.rs", "src/polynomial/array_polynomial.rs"]}
{"id": "C73", "title": "Equality is an equivalence relation", "statement": "== on polynomials is reflexive, symmetric and transitive, for every representation. (False for floats: a polynomial with a NaN coefficient differs from itself. There == is still symmetric and transitive, and a polynomial equals itself exactly if no coefficient is NaN.)", "quantifier": "all polynomials over integers and floats", "why_tests_cant": "all triples of polynomials.", "anchors": ["src/polynomial/polynomial.rs: PartialEq", "src/polynomial/sparsepolynomial.rs: PartialEq", "src/polynomial/monomial.rs: PartialEq", "src/polynomial/binomial.rs: PartialEq", "src/polynomial/trinomial.rs: PartialEq", "src/polynomial/array_polynomial.rs: PartialEq"]}
{"id": "C74", "title": "Degrees of results", "statement": "The degree of a product is the sum of the degrees of the factors, of a power the multiple, of a non-zero scalar multiple and a negation the same, of a derivative one less (zero for constants), of an integral one more, of a shift the degree moved by the shift; a sum or difference has at most the larger degree, and exactly that when the degrees differ. (False for products without overflow checks and for floats, where a product of non-zero coefficients can be 0.)", "quantifier": "all polynomials, dense and sparse", "why_tests_cant": "all degrees; depends on results being trimmed and no leading coefficient being lost.", "anchors": ["src/polynomial/polynomial.rs: degree and all operators", "src/polynomial/sparsepolynomial.rs: degree and all operators"]}
{"id": "C75", "title": "Remainder and factor theorem", "statement": "Dividing p by x - a leaves the value of p at a as remainder. So the remainder is zero exactly if a is a root, and then the quotient times x - a compares equal to p; at every other point x the value of p is the quotient's value times x - a plus p(a). The division ends, and over exact coefficients it returns.", "quantifier": "all dense polynomials p and points a, all coefficient types obeying the ring laws", "why_tests_cant": "relates two different algorithms (long division and evaluation) on all inputs.", "anchors": ["src/polynomial/polynomial.rs: div_mod, Rem, eval, Mul, =="]}
{"id": "C76", "title": "Values determine the polynomial", "statement": "Two polynomials of degree below n whose values agree at n distinct points compare equal; a polynomial of degree n has at most n distinct roots. (False without overflow checks: for every integer type a quadratic evaluates to 0 everywhere and yet is not equal to zero.)", "quantifier": "all dense and sparse polynomials over exact coefficients or checked integers, all lists of points", "why_tests_cant": "a statement about all polynomials and all sets of points.", "anchors": ["src/polynomial/polynomial.rs: eval, ==, degree", "src/polynomial/sparsepolynomial.rs: eval, ==, degree"]}
{"id": "C77", "title": "Float polynomials survive printing and parsing", "statement": "Printing a polynomial with f32 or f64 coefficients and parsing the text gives back a polynomial equal to it, with the very same coefficients apart from the sign of zeros, as long as all coefficients are finite. (False otherwise: the text printed for a polynomial with an infinity or NaN is never accepted.)", "quantifier": "all finite float coefficients of both formats, all dense, sparse, monomial, linear and quadratic polynomials", "why_tests_cant": "there are 2^64 values for each coefficient, and printing drops ones, signs and zero terms depending on the position.", "anchors": ["src/strings.rs: Display, FromStr", "src/polynomial/polynomial.rs: to_string, from_str", "src/polynomial/sparsepolynomial.rs: to_string, from_str"]}
{"id": "C78", "title": "Parsing floats rounds correctly", "statement": "In a float polynomial text each coefficient is the float nearest to the decimal number written, ties to even; exactly the decimal literals are accepted; repeated powers are summed from left to right with one rounding each. A Monomial text is accepted exactly if all its terms are and, whenever a term is read, the earlier terms of other powers have cancelled out. (Success does not mean that the coefficients are finite: a long run of digits is read as infinity.)", "quantifier": "all texts, both float formats, dense, sparse, linear and quadratic polynomials and monomials", "why_tests_cant": "infinitely many texts; the rounding matters only for rare halfway cases.", "anchors": ["src/strings.rs: FromStr", "src/terms.rs: Term::from_str", "src/polynomial/polynomial.rs: from_str", "src/polynomial/sparsepolynomial.rs: from_str"]}
{"id": "C79", "title": "A parse error names what is wrong", "statement": "When a text is not a term, from_str returns the error for the first fault in it, reading from the left: a character that cannot occur (the error carries that very character), a second x or ^, a ^ without x in front, an unreadable coefficient, a ^ without exponent. For a polynomial the error is that of its first bad term. Different errors have different messages. (False for an unreadable exponent: it is reported as an unreadable coefficient, and the error for exponents is never returned.)", "quantifier": "all texts and all number parsers", "why_tests_cant": "infinitely many texts; a text may have several faults at once, and tests check a handful of single faults.", "anchors": ["src/terms.rs: Term::from_str", "src/err.rs: TermFromStringError, Display", "src/macros.rs: FromStr"]}
{"id": "C80", "title": "Roots are listed with multiplicity", "statement": "roots() of a polynomial of degree n lists n roots, real or complex, each as often as it occurs: the polynomial is its leading coefficient times the product of x - r over the list. (False for c x^k with k > 1, where the root 0 is listed once.)", "quantifier": "exact real arithmetic; all polynomials of degree 1 to 3 (cubics within the condition of C44), and from degree 4 on all answers that claim to be complete", "why_tests_cant": "all real coefficients; double and triple roots are exceptional points.", "anchors": ["src/polynomial/find_roots.rs: find_roots, find_roots_special, trinomial_roots, cubic_roots", "src/polynomial/polynomial.rs: roots", "src/polynomial/sparsepolynomial.rs: roots"]}
{"id": "C81", "title": "Term updates over floats, call by call", "statement": "After any sequence of try_add_term, try_sub_term and set_to_zero over f32 or f64, each coefficient is what the successful calls for that exponent give when carried out one after the other on floats, starting from the coefficient before (or 0 after a reset); other exponents never influence it. Dense and sparse polynomials accept every call; fixed-size ones refuse exactly the degrees they cannot hold, a monomial exactly a second term. Dense and sparse give the same answers and the same coefficients up to the sign of a zero.", "quantifier": "all call sequences, all floats including NaN and infinities, all exponents a vector or usize can hold", "why_tests_cant": "unbounded histories over floats; addition does not commute with reordering, so a test of one order says nothing of another.", "anchors": ["src/polynomial/polynomial.rs: MutablePolynomial", "src/polynomial/sparsepolynomial.rs: MutablePolynomial", "src/polynomial/monomial.rs: MutablePolynomial", "src/polynomial/binomial.rs: MutablePolynomial", "src/polynomial/trinomial.rs: MutablePolynomial", "src/polynomial/array_polynomial.rs: MutablePolynomial"]}
{"id": "C82", "title": "A number as a polynomial", "statement": "Monomial::from(c), new(vec![c]), SparsePolynomial::from(vec![c]) and from_terms(&[(c, 0)]) all are the constant c: coefficient c at x^0 and zero elsewhere, for integers, floats and every other type where 0 + x is x. The value of the constant monomial is c at every point.", "quantifier": "all coefficient types with 0 + x = x up to zeros; all c", "why_tests_cant": "all numbers, NaN and infinities included.", "anchors": ["src/polynomial/monomial.rs: From<N>", "src/polynomial/polynomial.rs: new, from_terms", "src/polynomial/sparsepolynomial.rs: From<Vec<N>>, from_terms"]}
{"id": "C83", "title": "A float polynomial is the same dense or sparse", "statement": "If a Polynomial and a SparsePolynomial over f32 or f64 have the same coefficients up to the sign of a zero, then so do their sums, differences, negations, derivatives and integrals, their multiples by a finite number and their quotients by a non-zero number; degree, listed terms and comparison agree too. Their products agree within the two rounding bounds. REFUTED: products are not bit for bit the same, because the partial products are added in another order, and multiplication by an infinite number turns the zeros a dense polynomial stores into NaN.", "quantifier": "all dense and sparse float polynomials with the same coefficients, NaN and infinities included", "why_tests_cant": "choosing a representation must not change an answer, for unboundedly many polynomials; the two disagreements need particular magnitudes.", "anchors": ["src/polynomial/polynomial.rs: Add, Sub, Neg, Mul, Div, derivative, integral", "src/polynomial/sparsepolynomial.rs: Add, Sub, Neg, Mul, Div, derivative, integral"]}
{"id": "C84", "title": "Rounding error of sparse and monomial float evaluation", "statement": "If powi of the platform is within a relative error d and an absolute error e of the true power, eval of a sparse polynomial with n terms over f32 or f64 is, when finite, within ((1+u)^(n+1)(1+d) - 1) times the value of the absolute polynomial, plus e and underflow terms, of the exact value; a monomial likewise with one rounding; dense and sparse evaluation differ by at most their two bounds. REFUTED for exponents of 2^31 and more: the exponent is cast to i32, so x^(2^31) at 1/2 is computed as (1/2)^(-2^31), which is not finite.", "quantifier": "all term maps with exponents below 2^31, all points, all powi with the stated accuracy", "why_tests_cant": "error bounds over all floats; the cast shows only for exponents above two thousand million.", "anchors": ["src/polynomial/sparsepolynomial.rs: eval", "src/polynomial/monomial.rs: eval", "src/numerics.rs: PowUsize for f32, f64"]}
{"id": "C85", "title": "Polynomials with complex coefficients", "statement": "Polynomial and SparsePolynomial over num::Complex<N> compute with the real and imaginary parts as complex polynomials do: sums, differences and negation part by part, (A+iB)(C+iD) = (AC-BD) + i(AD+BC), powers, scaling, and for Polynomial values at complex points. A Polynomial with real coefficients takes conjugate values at conjugate points. Degrees of products add. Over Gaussian integers whatever div_mod (and %= of Polynomial) returns satisfies the division equation and the remainder of a Polynomial by x - a is the value at a; over exact complex fields div_mod of Polynomial always returns, while that of SparsePolynomial never returns if the dividend has the larger degree. With all imaginary parts zero the results are those of the integer type.", "quantifier": "all complex polynomials and points over every ring-like coefficient type", "why_tests_cant": "complex coefficients exercise every generic method with a type that has no order and truncates division in both parts; identities over unboundedly many polynomials.", "anchors": ["src/polynomial/trinomial.rs: complex_roots", "src/polynomial/polynomial.rs: Add, Sub, Neg, Mul, pow, eval, div_mod, RemAssign", "src/polynomial/sparsepolynomial.rs: Add, Sub, Neg, Mul, pow, degree, div_mod"]}
{"id": "C86", "title": "Undoing an operation on a float polynomial", "statement": "For f32 and f64 polynomials, dense or sparse: -(-p), p + 0, p - 0, p * 1 and p / 1 are p and p * 2 is p + p whatever the coefficients, infinities and NaN included; p - p is the zero polynomial when all coefficients are finite; scaling by a power of two and back is exact while the coefficients stay normal; p / c * c, p * c / c, (p + q) - q, (p - q) + q and the derivative of the integral return every coefficient within a stated rounding bound, and not exactly in general.", "quantifier": "all float polynomials and scalars", "why_tests_cant": "rounding differs for every pair of operands; a test on sample values cannot bound the error of every round trip, nor show that a round trip is exact for all values.", "anchors": ["src/polynomial/polynomial.rs: Neg, Add, Sub, Mul<N>, Div<N>, derivative, integral", "src/polynomial/sparsepolynomial.rs: Neg, Add, Sub, Mul<N>, Div<N>, derivative, integral"]}
{"id": "C87", "title": "Reported roots, checked with the library's own operations", "statement": "In exact arithmetic, whatever the tolerance arguments: for a polynomial of degree 1 to 3 to which the formulas apply, each number reported by roots() evaluates to exactly zero (through eval over Complex coefficients), every number that evaluates to zero is reported, and multiplying the leading coefficient by x - r for every reported r gives a polynomial equal to the original. The same holds in real arithmetic, dense or sparse evaluation, for a real result of any degree.", "quantifier": "all real polynomials, all complex arguments, every root list returned", "why_tests_cant": "the claim compares three independent parts of the API (roots, eval, multiplication) on every input; tests use a few polynomials with nice roots, and the cubic formula is wrong exactly where those are rare.", "anchors": ["src/polynomial/polynomial.rs: roots, eval, Mul, PartialEq", "src/polynomial/sparsepolynomial.rs: roots, eval", "src/polynomial/find_roots.rs: find_roots", "src/polynomial/trinomial.rs: roots"]}
{"id": "C88", "title": "Float division recombines to the dividend", "statement": "For f32 and f64 polynomials and a divisor whose leading coefficient can be divided out without loss (1, -1, or a smaller power of two of either sign): when div_mod returns a finite remainder, the dividend and quotient are finite, the remainder has a smaller degree than the divisor, and each coefficient of quotient * divisor + remainder differs from that of the dividend by at most ((1+u)^K - 1) times the sum of the magnitudes added up there plus K (1+u)^K times half the smallest float, K the number of rounds and u = 2^-24 or 2^-53. %= leaves a remainder for which such a quotient exists. For whole-number coefficients, leading coefficient 1 or -1 and magnitudes below 2^24 or 2^53, quotient and remainder are exactly those of the polynomials over the reals.", "quantifier": "all float polynomials, all such divisors, all results", "why_tests_cant": "errors accumulate over the rounds and over every degree; a test compares one division with a tolerance chosen by eye, and the claim must hold with cancellation, subnormal intermediate values and long dividends.", "anchors": ["src/polynomial/polynomial.rs: div_mod, vec_sub_w_scale, RemAssign"]}
{"id": "C89", "title": "Float integrals and derivatives approximate areas and slopes", "statement": "For f32 and f64 polynomials of the four dense kinds (Polynomial, ArrayPolynomial, LinearBinomial, QuadraticTrinomial) with n coefficients and finite points: when integral().eval(s, t) is finite, it differs from the area under the polynomial from s to t by at most ((1+u)^(2n+2) - 1) times the areas from 0 to |s| and from 0 to |t| under the polynomial with absolute coefficients, plus a multiple of half the smallest float. When derivative().eval(x) is finite, it differs from the slope at x by at most ((1+u)^(2n-3) - 1) times the slope of the polynomial with absolute coefficients at |x| plus such a term (two roundings more for arrays, none at all for binomials). Neither ever panics while the number of coefficients is at most 2^24 or 2^53.", "quantifier": "all float polynomials of these kinds, all points", "why_tests_cant": "area and slope are limits, which no test computes; the accumulated error depends on every coefficient and on the cancellation between the two end points.", "anchors": ["src/polynomial/integral.rs: Integral::eval", "src/polynomial/polynomial.rs: derivative, integral, eval", "src/polynomial/array_polynomial.rs: derivative, integral", "src/polynomial/binomial.rs: derivative, integral", "src/polynomial/trinomial.rs: derivative, integral"]}
{"id": "C90", "title": "Computed signs that are certain, and brackets of real roots", "statement": "For an f32 or f64 polynomial and a finite point: if the computed value exceeds the evaluation error bound (C65), the true value is positive, and if it is below minus the bound, negative; at an exact real root the computed value is within the bound of zero. If the computed values at x1 < x2 have opposite certain signs, the polynomial has a real root strictly between them. Along increasing points with alternating certain signs there are at least as many different real roots as sign changes.", "quantifier": "all float polynomials, all points, all sequences of points", "why_tests_cant": "users bracket roots by looking for sign changes of eval; whether a sign is that of the true polynomial depends on all the roundings, and a test cannot exhibit a real root that no float represents.", "anchors": ["src/polynomial/polynomial.rs: eval", "src/polynomial/array_polynomial.rs: eval"]}
{"id": "C91", "title": "Float powers and sparse float evaluation with square-and-multiply powers", "statement": "With powers computed by repeated squaring and multiplying, as the runtime library computes f32/f64 powi: a finite power x^n (1 <= n < 2^31) differs from the real power by at most ((1+u)^(n-1) - 1) |x|^n plus a multiple of half the smallest float, and is exact for whole numbers while x^n stays within 2^24 or 2^53. Hence a finite value returned by eval of a SparsePolynomial or a Monomial lies within an explicit bound of the true value, in terms of the largest exponent and of the polynomial with absolute coefficients, without any assumption on powi; and for whole-number coefficients and points the value is exact while the absolute sum stays within 2^24 or 2^53.", "quantifier": "all f32/f64 sparse polynomials and monomials with exponents below 2^31, all points", "why_tests_cant": "the number of roundings of a power depends on the bits of the exponent; no finite set of points settles a relative error bound for all exponents.", "anchors": ["src/polynomial/sparsepolynomial.rs: eval", "src/polynomial/monomial.rs: eval", "src/numerics.rs: PowUsize"]}
{"id": "C92", "title": "Equal polynomials behave alike", "statement": "Two polynomials that compare equal can replace one another: trim makes them the same value; dense ones have the same degree, terms, products, powers, derivative, integral and quotient, remainders and sums that compare equal again, panic in the same cases and evaluate to the same value; fixed-size ones are identical; sparse ones agree in degree and terms, in every sum, difference and scalar product, and in every value both can compute.", "quantifier": "all coefficient types with exact operations (every integer type in both overflow modes), all polynomials, all operations named", "why_tests_cant": "equality ignores stored zeros while the operations walk over the stored entries; whether a stored zero is ever noticed is a question about all representations of all polynomials.", "anchors": ["src/polynomial/polynomial.rs: PartialEq, trim, eval, derivative, integral, pow, div_mod", "src/polynomial/sparsepolynomial.rs: PartialEq, trim, eval, integral, map_mul", "src/polynomial/monomial.rs: PartialEq", "src/polynomial/binomial.rs: PartialEq", "src/polynomial/trinomial.rs: PartialEq", "src/polynomial/array_polynomial.rs: PartialEq"]}
{"id": "C93", "title": "Spacing, grouping characters and a leading plus do not change a text's meaning", "statement": "Parsing a polynomial gives the same polynomial, or the same error, whether or not the text contains spaces; commas and underscores can be removed as well unless they stand in front of the first sign; for integer coefficients a plus sign in front of the first number or x can be left out. (The text must not consist of spaces alone.) A text that is accepted consists only of number characters, signs, x, ^, spaces, commas and underscores.", "quantifier": "all texts, all coefficient types (the leading plus: all integer types), every representation that can be parsed", "why_tests_cant": "texts are unbounded and separators can stand between any two characters; the splitting of the text into terms treats blanks and other separators differently.", "anchors": ["src/strings.rs: FromStr", "src/terms.rs: Term::from_str, TermTokenizer"]}
{"id": "C94", "title": "Sparse float integrals and derivatives approximate areas and slopes", "statement": "For a SparsePolynomial or Monomial over f32 or f64, with powers computed by repeated squaring: the value of derivative() at x and the value of integral() between s and t, where finite, lie within an explicit bound of the true slope and of the true area, relative to slope and area of the polynomial with absolute coefficients, plus a bounded multiple of half the smallest float. This includes monomials whose integral underflows to no stored term at all.", "quantifier": "all f32/f64 sparse polynomials and monomials with exponents below 2^31 and within the exactly representable integers, all points and intervals", "why_tests_cant": "the error depends on the exponents, on the number of entries and on underflow; slopes and areas are limits that no test can compute.", "anchors": ["src/polynomial/sparsepolynomial.rs: derivative, integral, eval", "src/polynomial/monomial.rs: derivative, integral, eval", "src/polynomial/integral.rs: eval", "src/numerics.rs: PowUsize"]}
{"id": "C95", "title": "Printed text is a canonical form", "statement": "Two polynomials, in any of the five types that print themselves, have the same text if and only if they have the same coefficients: the text does not depend on the type, on leading zeros or on stored zeros, and different polynomials never share a text. For integers with overflow checks, where printing can panic, equal polynomials panic alike. For floats this includes infinities and NaN, and 0.0 and -0.0 count as the same. Consequently Polynomials that compare equal print alike, and those that print alike compare equal.", "quantifier": "all polynomials of all five types, all integer types in both overflow modes, f32 and f64 with any number formatting that parses back", "why_tests_cant": "injectivity is a statement about all pairs of polynomials, including coefficients (infinity, NaN, the integer minimum) whose text cannot be parsed back.", "anchors": ["src/strings.rs: fmt_poly!, write_leading_term, write_trailing_term", "src/polynomial/monomial.rs: Display"]}
{"id": "C96", "title": "Division of sparse float polynomials", "statement": "For f32 and f64 SparsePolynomials: division by zero panics; a dividend of smaller degree is returned as the remainder with quotient 0; otherwise div_mod returns a quotient and a remainder of smaller degree. (False. If the dividend's degree exceeds the divisor's, div_mod never returns. If the degrees are equal, it returns exactly if repeatedly subtracting the rounded quotient times the leading coefficient reaches 0: never when the quotient underflows, nor for x divided by 49x in f64. If the first subtraction already gives 0, the quotient is that of the leading coefficients and every remainder coefficient is p - d*q with two roundings.)", "quantifier": "all f32/f64 sparse polynomials, infinities and NaN included", "why_tests_cant": "termination on all inputs, decided by the rounding of one multiplication; a test can only time out.", "anchors": ["src/polynomial/sparsepolynomial.rs: div_mod, Div, Rem"]}
{"id": "C97", "title": "Factors of integer quadratics", "statement": "For a quadratic over a signed integer type: real_factors() is None exactly if the discriminant is negative; otherwise, if the quadratic is a(x - r)(x - s) for integers r and s, the returned factors multiply back to it; complex_factors() always returns, and its factors multiply back whenever the quadratic splits over the Gaussian integers. (False: with real roots the factors multiply back exactly if the quadratic is a(x - r)(x - s) with r + s even, and with negative discriminant exactly if it is a(x^2 + w^2).)", "quantifier": "all quadratics over all signed integer types from i16 on whose discriminant can be computed without overflow, both overflow modes", "why_tests_cant": "an exact characterisation over all coefficients; tests use one or two polynomials with even root sum.", "anchors": ["src/polynomial/trinomial.rs: real_factors, complex_factors", "src/polynomial/find_roots.rs: trinomial_roots"]}
{"id": "C98", "title": "Factors of float quadratics", "statement": "For f32 and f64 quadratics with whole-number coefficients in range (as in C69): real_factors() is None if the discriminant is negative; if the roots are whole numbers, both factorisations multiply back exactly. With coefficients of moderate size (as in C70) real factors multiply back to the leading coefficient exactly and to the others within 3.1 u sqrt(B) and 3.3 u B / |a|, B = b^2 + 4|ac|, and there are none only if the discriminant is negative or within rounding of 0; complex_factors() of a quadratic with negative discriminant multiplies back up to rounding. (The last part is false: for all finite coefficients with b not 0, whenever there are no real factors the complex ones do not multiply back. a(x^2 + w^2) does.)", "quantifier": "all f32/f64 quadratics; the exact results for whole-number coefficients in range, the bounds for coefficients of moderate size", "why_tests_cant": "the failure holds for every input with b not 0; exactness depends on no rounding in any of ten operations.", "anchors": ["src/polynomial/trinomial.rs: real_factors, complex_factors", "src/polynomial/find_roots.rs: trinomial_roots"]}
{"id": "C99", "title": "Order of the two real roots in machine arithmetic", "statement": "roots() of a quadratic returns the larger real root first, as its documentation says, also with rounded floats and truncated integers. (True for a positive leading coefficient; for a negative one the smaller root always comes first.)", "quantifier": "all f32/f64 quadratics with finite roots; all quadratics over signed integer types from i16 on whose discriminant can be computed without overflow", "why_tests_cant": "rounding could swap two nearly equal roots; that it never does is a statement about all coefficients.", "anchors": ["src/polynomial/trinomial.rs: roots", "src/polynomial/find_roots.rs: trinomial_roots"]}
{"id": "C100", "title": "Arithmetic modulo a polynomial", "statement": "Reducing with %= behaves like reduction modulo the divisor: two remainders are equal exactly if the difference of the dividends is a multiple of the divisor; reducing twice changes nothing; sums, differences, negatives, products and powers may be reduced before or after; multiples of the divisor leave nothing; at a zero of the divisor dividend and remainder have the same value. So Euclid's algorithm written with %= and is_zero() ends over a field and returns a greatest common divisor.", "quantifier": "all dense polynomials over every coefficient type with exact ring arithmetic without zero divisors (checked integers, rationals, Gaussian integers), whenever the calls return; over a field they always do", "why_tests_cant": "a law relating several calls on arbitrary polynomials; tests reduce a few fixed pairs.", "anchors": ["src/polynomial/polynomial.rs: RemAssign", "src/polynomial/polynomial.rs: Add, Sub, Neg, Mul, pow"]}
{"id": "C101", "title": "roots() does not depend on how the polynomial is stored", "statement": "The same coefficients have the same roots() in a Polynomial, with or without leading zeros, and in a SparsePolynomial, with or without stored zeros. Up to degree 3 and for single terms this holds to the last bit and whatever the iterative solver does; for higher degrees whenever the two evaluations agree, which they do in exact arithmetic.", "quantifier": "all coefficient vectors and maps with the same non-zero coefficients, every coefficient type including f32/f64, every solver, sqrt, cbrt and rounding function", "why_tests_cant": "compares two code paths on all inputs; f64 results of tests are compared with a tolerance.", "anchors": ["src/polynomial/polynomial.rs: roots", "src/polynomial/sparsepolynomial.rs: roots", "src/polynomial/find_roots.rs: find_roots"]}
{"id": "C102", "title": "Rounding error of powers of float polynomials", "statement": "pow(n) of an f32 or f64 Polynomial with l coefficients: if all coefficients of the result are finite, each differs from the exact one by at most ((1+u)^k - 1) times the same coefficient of the power of the polynomial with absolute coefficients, where k = n log2(n) (l-1) + n-1 (log2 rounded down). This needs that the coefficients are multiples of some 2^q with 2^(nq) not below the smallest positive float, which whole numbers always are; with positive coefficients it is a relative error. Without that condition a coefficient can be lost altogether. A SparsePolynomial has the same bound, with l the length of an arithmetic progression containing its exponents (so 2 for any two terms), and its power always exists while the exponents fit a usize. The power of a Polynomial is finite if ((1+u)^(k+1)) v^n is below the overflow threshold, v being the sum of the absolute coefficients or 1 if that is larger.", "quantifier": "all f32/f64 coefficient vectors and maps, all exponents, any number of recursion levels", "why_tests_cant": "the error accumulates over repeated squarings whose intermediate results no test inspects, for all degrees and exponents.", "anchors": ["src/polynomial/polynomial.rs: pow", "src/polynomial/polynomial.rs: Mul", "src/polynomial/sparsepolynomial.rs: pow"]}
{"id": "C103", "title": "Mirror images of a float polynomial have mirrored results", "statement": "For f32 and f64, let every coefficient of p change sign, or the odd ones, or the even ones: -p(x), p(-x), -p(-x). Then every operation on such mirror images (value, sum, difference, negation, product, power, multiple, quotient by a number, derivative, integral, polynomial division) returns the corresponding mirror image of the result, bit for bit except for the sign of zeros, with infinities and NaN, or panics alike. An even (odd) polynomial has the same (opposite) values at x and -x. The two roots of a quadratic become the same or opposite numbers, in the same or the other order. For SparsePolynomials the value needs powers that follow the sign of the base, as repeated squaring does, and division is covered for negated operands.", "quantifier": "all f32/f64 coefficient vectors and maps, all points, both overflow modes", "why_tests_cant": "rounding could break the symmetry anywhere; that it never does is a statement about all bit patterns in all operations.", "anchors": ["src/polynomial/polynomial.rs: eval, Add, Sub, Neg, Mul, pow, derivative, integral, div_mod, RemAssign", "src/polynomial/sparsepolynomial.rs: eval, Add, Sub, Neg, Mul, pow, derivative, integral, div_mod", "src/polynomial/find_roots.rs: trinomial_roots"]}
{"id": "C104", "title": "Integer coefficients obey the limits of their type", "statement": "For each of the twelve integer types, with its limits written out: a sum, difference, multiple or negation of coefficients that fits is returned; one that does not fit panics in a debug build and in a release build is reduced by the number of values of the type. Dividing a coefficient rounds toward zero, and panics exactly for a zero divisor and for the minimum by -1. Evaluating c x^d (d < 2^32) in a debug build panics exactly if x^d or c x^d does not fit, not because of an intermediate result. derivative() of c x^d panics in both builds if d exceeds the maximum of the type.", "quantifier": "all twelve integer types, all coefficients, points and exponents, both overflow modes", "why_tests_cant": "the limits matter at the extremes of 8- to 128-bit types; tests use small i32 values.", "anchors": ["src/polynomial/polynomial.rs: AddAssign, Sub, Neg, MulAssign, DivAssign", "src/polynomial/monomial.rs: Mul, eval, derivative", "src/numerics.rs: PowUsize, TryFromUsizeExact"]}
{"id": "C105", "title": "Repeated roots show in the derivative", "statement": "p and p.derivative() both evaluate to 0 at a exactly if (x - a)^2 divides p. Dividing p by x - a twice leaves first the value of p at a, then the value of the derivative there. If (x - a)^(n+1) divides p with cofactor m, (x - a)^n divides the derivative with a cofactor whose value at a is (n+1) m(a), and no higher power does if that is not 0.", "quantifier": "all dense and sparse polynomials, all points and multiplicities, every coefficient type obeying the ring laws", "why_tests_cant": "relates four calls on all polynomials; tests differentiate and evaluate fixed examples.", "anchors": ["src/polynomial/polynomial.rs: eval, derivative, div_mod", "src/polynomial/sparsepolynomial.rs: eval, derivative"]}
{"id": "C106", "title": "Congruent points have congruent values", "statement": "For integer coefficients the difference of the values of p at a and b is a multiple of a - b; so points that agree modulo m give values that agree modulo m, and a root divides the constant coefficient. In a release build the same holds up to multiples of the number of values of the type, so modulo every power of 2 the type can hold.", "quantifier": "all dense and sparse polynomials over all integer types (and every type obeying the ring laws), all pairs of points, all moduli", "why_tests_cant": "a divisibility law over all pairs of points, including values that have wrapped around.", "anchors": ["src/polynomial/polynomial.rs: eval", "src/polynomial/sparsepolynomial.rs: eval"]}
{"id": "C107", "title": "Bounds on a float polynomial bound the computed results", "statement": "For f32 and f64, let every coefficient of p be at most the matching coefficient of P in absolute value, and likewise q and Q, and |x| <= X, all finite. Then the computed p(x) is finite and at most the computed P(X) in absolute value, whenever that is finite; so are the coefficients of p + q and p - q compared with P + Q, of p * q with P * Q, of powers, multiples, quotients by a number, derivatives and integrals with those of P. In particular evaluation of a polynomial without negative coefficients is monotone in the coefficients and, for points not below 0, in the point. For SparsePolynomials: sums, differences, negations, multiples, quotients and (with square-and-multiply powers and matching stored degrees) values.", "quantifier": "all f32/f64 coefficient vectors and maps with finite entries, of any and of different lengths, all finite points, both overflow modes", "why_tests_cant": "rounding and the different treatment of zero coefficients and of the point 0 could break the order anywhere; the claim is about all pairs of inputs.", "anchors": ["src/polynomial/polynomial.rs: eval, Add, Sub, Neg, Mul, pow, Mul<N>, Div<N>, derivative, integral", "src/polynomial/sparsepolynomial.rs: eval, Add, Sub, Neg, Mul<N>, Div<N>"]}
{"id": "C108", "title": "Certificates made from computed float values only", "statement": "For f32 and f64, let L have the absolute values of the coefficients of p. The computed L(|x|) bounds the rounding error of the computed p(x): the distance to the exact value is at most m/(1-2m) (L(|x|) + t) + t, with m = 2 (number of coefficients - 1) u < 1/2, u the unit roundoff and t an explicit bound for underflow. If the computed p(x) exceeds that in absolute value, it has the sign of the exact value; two such values of opposite sign enclose a real root. If the constant coefficient exceeds (1-m)/(1-2m) (C(X) + t) in absolute value, C(X) the computed value of the other absolute coefficients, p has no real root between -X and X.", "quantifier": "all finite f32/f64 coefficient vectors with 2 (n - 1) u < 1/2, all finite points, all real numbers in the intervals, both overflow modes", "why_tests_cant": "exact values and roots are real numbers; tests can only compare floats with floats.", "anchors": ["src/polynomial/polynomial.rs: eval"]}
{"id": "C109", "title": "Tangents and Newton steps", "statement": "The value of p at b is p(a) + p'(a)(b - a) up to a multiple of (b - a)^2, with p' = p.derivative() and the values from eval. So for integer coefficients a Newton step doubles the precision of a root: if m divides p(a) and p'(a) x - 1, and b = a - p(a) x modulo m^2, then m^2 divides p(b). In a release build the same holds with m = 2^i for every i up to half the width of the type, whatever wraps around on the way.", "quantifier": "all dense and sparse polynomials, all points and moduli, all twelve integer types, both overflow modes, and every coefficient type obeying the ring laws", "why_tests_cant": "relates four calls on all polynomials and all pairs of points, including values that have wrapped around.", "anchors": ["src/polynomial/polynomial.rs: eval, derivative", "src/polynomial/sparsepolynomial.rs: eval, derivative"]}
{"id": "C110", "title": "Accumulating float polynomials into a sink", "statement": "add_poly and sub_poly of the terms of any float polynomial q into a dense or sparse sink never fail, and leave each coefficient as the sink's plus (minus) that of q, rounded once, which is what + and - give. poly_add! and poly_sub! do this from left to right. mul_poly_vec of two polynomials with finite coefficients adds the products p_d q_0, ..., p_0 q_d to the sink's coefficient of x^d in this order, one rounding each; with an empty sink the result is that of the operator *. The product a * b of sparse polynomials is the dense product b * a, rounding for rounding. (Zeros may differ in sign.)", "quantifier": "all f32 and f64 sinks and sources, NaN and infinities included for sums, all degrees which fit", "why_tests_cant": "compares the results of different calls, rounding for rounding, on all inputs; unit tests compare a few exact values.", "anchors": ["src/polynomial/poly_math.rs: add_poly, sub_poly, mul_poly_vec, poly_add!, poly_sub!", "src/polynomial/polynomial.rs: add, sub, mul, try_add_term, try_sub_term", "src/polynomial/sparsepolynomial.rs: add, sub, try_add_term, try_sub_term"]}
{"id": "C111", "title": "Where the roots of an integer polynomial lie", "statement": "Let a be the leading coefficient of an integer polynomial of degree n, and H a bound on the size of the others. At a point x with (|x| - 1)|a| > H, eval returns a number with the sign of a x^n. Every real root of the polynomial lies within 1 + H/|a|. If eval returns numbers of opposite sign at two points, there is a real root between them. A point other than 0 at which eval returns 0 divides the lowest non-zero coefficient.", "quantifier": "all integer types, dense and sparse polynomials, all points, whenever eval returns in a debug build", "why_tests_cant": "relates computed integers to the real roots of the polynomial, for all degrees and coefficients.", "anchors": ["src/polynomial/polynomial.rs: eval, degree", "src/polynomial/sparsepolynomial.rs: eval, degree"]}
{"id": "C112", "title": "Repeated division by x - a is the Taylor expansion", "statement": "Dividing p by x - a with div_mod, then the quotient by x - a, and so on k times leaves k constant remainders c_0, ..., c_(k-1): p = c_0 + c_1 (x - a) + ... + c_(k-1) (x - a)^(k-1) + (x - a)^k g, where g is the last quotient, and eval agrees with this at every point. With k above the degree, g is zero. Taking derivative() i times and then eval at a returns i! c_i.", "quantifier": "all exact coefficient types and all integer types, all polynomials, points and numbers of divisions, whenever the calls return", "why_tests_cant": "relates arbitrarily long chains of three different operations.", "anchors": ["src/polynomial/polynomial.rs: div_mod, derivative, eval, is_zero"]}
{"id": "C113", "title": "Values at equally spaced points", "statement": "Evaluate a polynomial of degree n at points with a fixed distance h and take differences of neighbouring values, then differences of these, and so on. The n-th differences are all equal to n! h^n times the leading coefficient, and all later ones are 0. In release builds both hold modulo 2^bits, whatever wraps around.", "quantifier": "all exact coefficient types and all integer types, dense and sparse polynomials, all distances, tables of any length, whenever eval returns", "why_tests_cant": "relates arbitrarily many calls of eval to the degree and the leading coefficient.", "anchors": ["src/polynomial/polynomial.rs: eval, degree", "src/polynomial/sparsepolynomial.rs: eval, degree"]}
{"id": "C114", "title": "Derivatives taken repeatedly", "statement": "After k calls of derivative() the coefficient of x^i is (i+k)!/i! times the former coefficient of x^(i+k). With integer coefficients in debug builds this lowers the degree by k, leaves zero when k is above the degree n, and gives the constant n! times the leading coefficient when k = n. In release builds the coefficients are right modulo 2^bits, but the degree can fall faster.", "quantifier": "all exact coefficient types and all integer types, dense and sparse polynomials, any number of derivatives, whenever the calls return", "why_tests_cant": "relates arbitrarily long chains of calls to the first polynomial.", "anchors": ["src/polynomial/polynomial.rs: derivative, degree", "src/polynomial/sparsepolynomial.rs: derivative, degree"]}
