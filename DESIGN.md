# Formal model of rustnomial in Rocq (Coq 8.16.1)

The list of properties is `properties.jsonl` (C01 ...). `MANIFEST.json` maps each property to theorem
names. This file says what is modelled, how each property is proved, and what has to be trusted.

## 1. Shape of the model

* `theories/Base.v` - outcomes. A Rust call is a total Gallina function returning
  `res A := Ok a | Panic kind | Fuel`. `Panic` is an explicit outcome for every panic in the code
  (arithmetic overflow, division by zero, index out of range, capacity overflow, `expect`,
  `unreachable!`, `panic!`). `Fuel` means "still running after that many loop rounds / calls"; theorems
  about termination say that some explicit fuel is enough, theorems about non-termination say that
  *every* fuel gives `Fuel`. `usize` values are `N` with explicit checked/wrapping operations on a 64-bit
  target; vector lengths and indices are `nat`.
* `theories/Num.v` - the coefficient type. A record `num T` lists the operations the crate's trait bounds ask for.
  Instances: every built-in integer type (`int t`, a bounded `Z`), each in two modes (overflow checks on = debug
  profile, off = release profile, wrapping); exact rationals `Qc` (`Laws.v`); reals `R` (`RealNum.v`, roots only);
  binary32/binary64 (`Floats.v`) through Flocq's IEEE-754 formalisation (`BinarySingleNaN`: signed zeros, infinities, one NaN,
  round to nearest even).
* One model file per source file: `Terms.v`, `Strs.v`, `Dense.v`, `Sparse.v`, `Mono.v`, `Bino.v`,
  `Trino.v`, `ArrPoly.v`, `PolyMath.v`, `Integr.v`, `Roots.v`, `Numerics.v`, `Upcast.v`. Every definition cites the lines of `/repo` it models.
* `theories/Spec.v` - the specification, independent of the model: commutative rings, polynomials as
  functions `nat -> R` (coefficient of x^d), coefficientwise sum, convolution product, power, formal
  derivative, shift, value at a point as a finite sum, degree as largest non-zero index.
* Lemma files: `SpecFacts`, `Laws`, `DenseFacts/Arith/Mul/Calc/Shift/Div/Mut/MulInt/DivInt/CalcInt`, `Wrap`, `SparseFacts/Arith/Calc/Div`,
  `FixedFacts`, `MutFacts`, `StrFacts`, `StrShow`, `NumericsFacts`, `FloatFacts`, `UpcastFacts`, `FloatDiv` (float division loop),
  `RootFacts`, `RootLoop`, `RootSpecial`, `FloatRoots` (float deflation loop), `Coef`, `FloatErr`, `FloatEval`, `FloatMul`, `FloatCoef`, `FloatSparse` (rounding), `FloatText` (decimal text of floats).
* `P_*.v` - property files: the final theorems `Cnn_...`, each followed by a
  concrete non-trivial instance (`Example`) meeting its hypotheses and `Print Assumptions`.

`lawful O R den` states that the operations of `O`, *whenever they return*, agree with a
commutative ring `R` through `den : T -> R`, that `is_zero`/`==` decide equality there, and that conversions
from usize are exact. It is proved for overflow-checked integers (`R = Z`), for wrapping integers
(`R` = the ring of the type itself, i.e. Z mod 2^w), `Qc` and `R`. Theorems stated for any
lawful coefficient type therefore cover all 12 integer types in both profiles, and exact fields.

Contracts which the code violates are recorded as `_refuted` theorems (a concrete or general
counterexample in the model) together with the strongest true statement (`_partial` or an exact characterisation).

## 2. Plan per property

| id | what is modelled | how proved |
|----|------------------|------------|
| C01 | `Polynomial::new/trim/first_nonzero_index` (blocks of 4) | induction on the list in steps of four |
| C02 | `degree`, `is_zero` of all 6 representations | via first_nonzero_index lemma; sparse: loop invariant over the sorted map |
| C03 | `ordered_term_iter` | induction; membership iff non-zero coefficient, strictly decreasing |
| C04 | `term_with_degree` | case analysis, all N |
| C05 | `PartialEq` | term lists determine coefficient functions |
| C06, C07 | dense `+ - neg` and assigning forms | zip lemmas on suffix alignment; exact overflow characterisation for integers |
| C08, C09 | `slice_mul` | row-by-row accumulation invariant = convolution; refutation for 0*0 |
| C10 | `pow` dense and sparse | strong induction on the exponent with explicit fuel |
| C11 | scalar `* /` | map lemmas |
| C12 | `eval` of all representations | Horner invariant; evaluation homomorphism in Spec |
| C13, C14, C56 | `derivative`, `integral`, `Integral` | index bookkeeping induction; FTC over exact division |
| C15-C17 | shifts | skipn/firstn lemmas; fuel 2; refutations |
| C18-C21, C55 | dense `div_mod`, `floor_div`, `%`, `%=` | loop invariant p = q*d + r; measure = degree; refutations by invariant "no progress" for all fuel |
| C22 | sparse division | exact characterisation + refutation for all fuel |
| C23-C25 | sparse arithmetic and conversions | sorted-assoc-list get/insert lemmas |
| C26-C29 | mutation histories | induction over operation lists |
| C30, C31 | `poly_math` | generic sink with laws; instances |
| C32-C38 | Display / FromStr / tokenizer | strings as code-point lists with UTF-8 byte offsets; decimal printing/parsing inverse |
| C39-C46 | root finding | real arithmetic (`R`) for what the formulas compute, binary64 for termination of the deflation loop; Sturm solver as an arbitrary function argument |
| C47 | `abs_sqrt` | Newton iteration invariant over Z for every width |
| C48 | usize conversions | integers by range; floats via Flocq |
| C49 | upcasts | table of type pairs, range inclusion |
| C50-C52 | Monomial / Binomial / Trinomial arithmetic, exponent truncation, degree wrap | case analysis |
| C53 | Integral display | definitional plus zero test |
| C54 | ArrayPolynomial listing | case analysis on SIZE |
| C57, C58, C60 | every modelled operation over two coefficient types, or two builds, at once | one simulation relation (`Sim*.v`): related arguments give related results |
| C59 | whole-number floats within 2^24 / 2^53 | simulate the float operations by checked integers of that range (`ExactZ.v`), whose results are bounded as in C61 |
| C61 | checked integer operations under a magnitude bound | every partial sum is bounded by the polynomial of absolute values (`BoundedZ.v`, `BoundedPow.v`) |
| C62, C63 | programs of API calls | induction on the program (`Expr.v`) with C06-C19 as the cases; the laws are proved of coefficient functions |
| C64 | float operations coefficient by coefficient | law-free coefficient lemmas (`Coef.v`) and IEEE facts about zeros and signs (`FloatCoef.v`); rounding by Flocq's `Bplus_correct` etc. |
| C65, C66 | float evaluation and products | induction on the loop with the invariant `appr`: relative roundings times absolute values plus underflow (`FloatErr.v`, `FloatEval.v`, `FloatMul.v`, `FloatSparse.v`) |
| C67 | float addition commutes, products up to the bound of C66 | commutativity of IEEE addition; counterexamples for the other laws |
| C68, C69 | float linear roots; float quadratics with whole coefficients | correct rounding of one division; exactness of whole-number arithmetic below 2^prec (`FloatQuad.v`) |
| C70 | residual of float quadratic roots | relative error of every step (no underflow in the stated range), square root correctly rounded |
| C71 | slope and area | induction on the coefficients (product rule), fundamental theorem of calculus (Coquelicot), statement with the standard library's `derivable_pt_lim` and `RiemannInt` |
| C72 | structure without laws | every representation read as a function from exponents to coefficients of an arbitrary type; induction on the stored list or map |
| C73 | equality an equivalence | == decides equality of all coefficients (C72); equivalence lifts from coefficients; NaN counterexample |
| C74 | degrees of results | degree laws for coefficient functions over a domain (SpecDegree.v), transported along the coefficient theorems; counterexamples for wrapping integers and floats |
| C75 | remainder and factor theorem | uniqueness of division with remainder by x - a, C18, C20, C12 |
| C76 | values determine the polynomial | a non-zero polynomial over a domain has at most degree-many roots (deflation, induction); counterexample for wrapping integers |
| C77 | float texts survive a round trip | the printing lemma of C32 for coefficients that read back one by one (`StrShow.v`); any rendering that meets core's documented contract (`float_display`) |
| C78 | float parsing rounds correctly | decimal scan and one correctly rounded division (`FloatText.v`), Flocq's division theorem; sums by induction on the terms |
| C79 | which error a bad text gives | inductive specification of the faults (`term_error`), shown equivalent to the scanner's answer by the invariants of C36 |
| C80 | roots with multiplicity | splitting over the complex numbers (`splits` in `P_Mult.v`), from C39, C44, C45 and C46 by comparing coefficients |
| C81 | float histories | `fhist` folds the accepted calls of one exponent over floats; one step lemma per representation, then induction on the history |
| C82 | constants | coefficient functions of every constructor compared with `const_pol`; no laws beyond 0 + x = x |
| C83 | dense and sparse floats | `agree` compares coefficient functions up to the sign of zero; congruence of every float operation under it; counterexamples computed by the kernel |
| C84 | sparse float evaluation | error induction over the terms (`appr`), then the accuracy of `powi` summed over the terms; `f_upow` models the cast to i32 |
| C85 | complex coefficients | `complex_num` turns a coefficient type into complex numbers over it and `cx_ring` a ring into pairs; the laws carry over, so every generic theorem applies; products are stated by parts |
| C86 | round trips of float operations | coefficientwise by C64 and C83; exactness from IEEE rounding of representable numbers, bounds from two rounding errors; refuted where a user might expect exactness |
| C87 | reported roots evaluate to zero and multiply back | C80 gives the splitting over the complex numbers; evaluation and multiplication of the model are linked to it by C12, C08 and C85; refuted for the cubics of C44 |
| C88 | float division recombines to the dividend up to a bounded error | the loop is reduced to a list of rounds (scale, shift), finiteness is carried back from the result, and the error is bounded by induction from the last round to the first; exact for whole numbers; without the condition on the leading coefficient the claim is false (C55) |
| C89 | float integrals and derivatives against the Riemann area and the limit slope | evaluation of a vector whose coefficients are near given reals, then the integral and derivative of each dense kind shown to be such a vector |
| C90 | certain signs of float values, brackets and counts of real roots | from the bound of C65 and the intermediate value theorem |
| C91 | float powers by square and multiply, sparse evaluation with them | `rt_powi` in `P_FloatPowi.v` models the runtime library's loop; error induction over the bits of the exponent, then C84 |
| C92 | equal polynomials are interchangeable; refuted for sparse evaluation, products and integrals of stored zeros | uniqueness of the stripped vector and of the trimmed map; every dense operation shown to read only the stripped vector |
| C93 | spaces, commas, underscores and a leading plus in parsed text; refuted for separators before the first sign | the tokenizer is rewritten as a splitting function and compared on the cleaned text |
| C94 | slopes and areas of sparse float polynomials and monomials | results of derivative and integral as explicit lists, then C91; areas as in C89 |
| C95 | same text if and only if same coefficients, across the five printable types | the text is cut at blanks into signs and term bodies, and each body at the x |
| C96 | when division of sparse float polynomials returns, and what; refuted otherwise | the loop as a sequence of residues of the leading coefficient; every round of an unequal-degree division leaves the degree alone |
| C97 | exactly which integer quadratics the factorisations multiply back to; refuted for odd root sums and complex roots | the quadratic formula with both truncations as integers, then parity and the bounds of the remainder |
| C98 | float factorisations: exact for whole roots, within rounding for real roots, refuted for complex roots with a term in x | C69, the error terms of C70, and the sign of a rounded quotient |
| C99 | order of the returned real roots for floats and integers; refuted for a negative leading coefficient | rounding and truncation are monotone |
| C100 | %= as reduction modulo the divisor: congruence, ring laws, values at zeros, Euclid's algorithm | a ring of polynomials up to equality; uniqueness of division (C18) |
| C101 | roots() of the same coefficients in either representation | root finding sees only the listed terms (C72) and, from degree 4 on, the evaluation |
| C102 | rounding error of powers of float polynomials | induction over the recursion of pow; no underflow term because multiples of 2^q stay multiples of 2^q |
| C103 | mirror images of float polynomials have mirrored results | rounding to nearest commutes with negation; a relation carried through every operation |
| C104 | integer coefficients obey the limits of their type | limits written out as literals; square-and-multiply never exceeds the final power |
| C105 | repeated roots and the derivative | product rule (C62) and division by x - a (C75) |
| C106 | congruent points have congruent values | x - b divides p - p(b) |
| C107 | bounds on a float polynomial bound the computed results | rounding is monotone and odd; coefficient formulas (C64, C102) and Horner's scheme aligned from the last coefficient |
| C108 | certificates made from computed float values only | C65 twice, C107 for finiteness, intermediate value theorem |
| C109 | tangents and Newton steps | division by x - a twice (C75, C105) |
| C110 | float sinks | one call (C81), listings (C72), the order of the products (C102) |
| C111 | roots of integer polynomials | eval (C12) and degree (C02) over the reals: the leading term outweighs the others, and the intermediate value theorem |
| C112 | Taylor expansion | div_mod (C18, C75), derivative (C13), eval (C12); induction on the divisions |
| C113 | tables of values | eval (C12), degree (C02); p(x + h) - p(x) has a lower degree, by induction |
| C114 | repeated derivatives | derivative (C13), degree (C02); induction on the calls |

## 3. Trusted base

* The Coq 8.16.1 kernel.
* Axioms: listed per theorem in section 5 (output of `Print Assumptions`). No axiom is added by this development;
  those which occur are the standard library's axioms of the classical reals.
* Libraries used: the Coq standard library and Flocq 4.1.0 (definitions and theorems; Flocq adds no axioms).
* The reading of the Rust source into Gallina (the definitions in the model files). As a check of that reading,
  `RepoTests.v` computes the assertions of the repository's own tests and documentation examples on the model; all of
  them hold. This is validation by examples, no theorem depends on it.
* Rust standard library and external crate behaviour as described in the comments where it is modelled:
  integer operators with/without overflow checks, `Vec`/slice operations, `BTreeMap` as a strictly sorted association list,
  `char::is_whitespace`, `char_indices`, byte slicing of strings, integer `FromStr`/`Display`/`pow`, `as` casts,
  `num::Zero/One` for primitive types, the operators of `num::Complex` (`Complex.complex_num`), IEEE-754 `+ - * /` and comparisons on floats (round to nearest even).
  Float `FromStr` is the correctly rounded value of the decimal literal (`FloatText.float_parse`); float `Display` is any function
  that meets `FloatText.float_display` (plain decimal digits that read back as the same float, `inf`, `NaN`).
* A 64-bit target (`usize` has 64 bits).

## 4. What is not modelled

* `Debug`, `Clone`, hashing, memory layout and allocation failure other than capacity overflow; stack overflow (deep
  recursion is `Fuel`); performance.
* `roots::find_roots_sturm` (external crate): an arbitrary function argument, so theorems hold for every solver.
* Which digits float `Display` chooses (theorems hold for every choice that reads back); exponents, `inf` and `nan` in float
  `FromStr` (the crate never passes such characters on).
* `powi`, `cbrt` of floats (arbitrary arguments; the cast of the exponent
  to i32 is modelled by `f_upow` in `P_FloatPow.v`; `P_FloatPowi.v` puts the runtime library's square-and-multiply loop in
  its place, which is a statement about that library and not about /repo; `sqrt` is an arbitrary argument too, except in
  `FloatQuad.v`, where it is the correctly rounded one that IEEE 754 prescribes). What the root formulas compute is proved with
  rounding for degrees 1 and 2 (C68 - C70), and in exact real arithmetic beyond.
* NaN payloads and sign bits.
* `poly_mul!` (does not compile: it names items which are not exported).
* `Mul`/`Add`/... between references and values which run the same code share one definition (the comment lists the lines).

### How seeded/LOG.jsonl was made

Each line is one wrong edit of one definition of the model, compiled in a scratch copy. Where a proof no longer
compiled, that proof was replaced by a hole and the build went on. `theorems_failed` lists the theorems which have a
hole in their own proof or in a lemma they use. Read it with these limits in mind.

* A listed theorem is one whose proof script broke. That does not show that its statement became false: a script can
  also break because the definition has a new shape. It also counts a proof which ran over its time limit.
* A theorem which is not listed was either still proved, or not tried. Most later runs compiled only the files of the
  claim in question and what they depend on, and most runs before C107 did not record theorems numbered C100 and above.
* The number in `claim` was chosen when the edit was written. Wrong numbers were corrected after the run.
* An edit which broke no proof is kept, with a note which says why or what was tightened.

## 5. Axioms per theorem

Output of `Print Assumptions` for each of the 578 property theorems (`theories/Assumptions.v`, generated by `tools/manifest.py`; this section by `tools/assumptions.py`). All axioms are from the Coq standard library.

**Closed under the global context (no axioms)** (348):
`C01_new_strips_leading_zeros`, `C01_new_keeps_coefficients`, `C02_dense_degree`, `C02_dense_is_zero`, `C03_dense_listing`, `C04_dense_term_with_degree`, `C05_dense_eq`, `C06_dense_add`, `C06_dense_add_trimmed`, `C06_dense_add_returns`, `C06_dense_add_int_checked`, `C06_dense_add_int_wrapping`, `C07_dense_sub`, `C07_dense_sub_returns`, `C07_dense_sub_ref_same`, `C07_dense_neg`, `C07_dense_neg_returns`, `C07_dense_sub_int_checked`, `C07_dense_sub_int_wrapping`, `C08_dense_mul`, `C08_dense_mul_returns`, `C08_dense_mul_int_checked_returns`, `C08_dense_mul_int_nonneg_returns`, `C08_dense_mul_int_wrapping`, `C09_zero_times_nonzero_partial`, `C09_zero_times_zero_panics`, `C09_zero_times_zero_refuted`, `C10_dense_pow`, `C10_dense_pow_terminates`, `C10_dense_pow_returns`, `C10_dense_pow_zero_panics`, `C11_dense_scale`, `C11_dense_scale_returns`, `C11_dense_div_scalar`, `C11_dense_div_scalar_op`, `C11_dense_div_scalar_exact`, `C11_dense_div_scalar_by_zero`, `C12_dense_eval`, `C12_dense_eval_returns`, `C12_dense_eval_at_zero`, `C12_dense_eval_hom`, `C12_dense_eval_int_wrapping`, `C13_dense_derivative`, `C13_dense_derivative_returns`, `C13_dense_derivative_int_checked_returns`, `C14_dense_integral`, `C14_dense_integral_exact`, `C14_dense_integral_int`, `C15_dense_shift`, `C15_dense_shift_assign_returns`, `C15_dense_shl_shr`, `C16_dense_shr_characterisation`, `C16_dense_shr_trimmed_partial`, `C16_dense_shr_refuted`, `C17_dense_shift_min`, `C17_shift_min_refuted`, `C17_shift_other_partial`, `C18_dense_div_mod`, `C18_dense_div_mod_int_checked`, `C18_dense_div_mod_int_wrapping`, `C18_dense_div_mod_unique`, `C18_dense_div_mod_field`, `C18_dense_floor_div`, `C19_dense_div_mod_diverges`, `C19_dense_div_mod_refuted`, `C19_dense_div_mod_terminates_partial`, `C20_dense_rem_assign`, `C20_dense_rem_assign_field`, `C20_dense_rem_small_partial`, `C20_dense_rem_never`, `C20_dense_rem_refuted`, `C21_dense_zero_divisor`, `C21_dense_only_zero_divisor`, `C56_derivative_panics_early_refuted`, `C56_derivative_partial`, `C02_sparse_degree`, `C03_sparse_listing`, `C03_dense_sparse_listing`, `C04_sparse_term_with_degree`, `C05_sparse_eq`, `C11_sparse_scale`, `C11_sparse_scale_returns`, `C11_sparse_div`, `C11_sparse_div_exact`, `C23_sparse_add`, `C23_sparse_sub`, `C23_sparse_neg`, `C23_sparse_sub_dense`, `C23_sparse_returns`, `C23_sparse_int_wrapping`, `C24_sparse_mul`, `C24_dense_sparse_agree`, `C24_sparse_mul_returns`, `C24_sparse_mul_int_wrapping`, `C10_sparse_pow`, `C10_sparse_pow_terminates`, `C10_sparse_pow_int_wrapping`, `C25_from_vec`, `C25_from_terms`, `C25_from_terms_returns`, `C12_sparse_eval`, `C12_sparse_eval_int_wrapping`, `C12_dense_sparse_eval_agree`, `C51_sparse_eval_truncates`, `C51_sparse_eval_refuted`, `C13_sparse_derivative`, `C13_sparse_derivative_returns`, `C14_sparse_integral_exact`, `C14_sparse_integral_int`, `C15_sparse_shift`, `C15_sparse_shift_returns`, `C17_sparse_shift_min`, `C21_sparse_zero_divisor`, `C21_sparse_only_zero_divisor`, `C22_sparse_div_mod_partial`, `C22_sparse_rem_partial`, `C22_sparse_div_mod_returns_iff`, `C22_sparse_never`, `C22_sparse_div_mod_refuted`, `C52_sparse_checked`, `C52_sparse_shift_checked`, `C52_sparse_wraps_refuted`, `C02_fixed_degree`, `C02_fixed_is_zero`, `C03_fixed_listing`, `C04_fixed_term_with_degree`, `C05_fixed_eq`, `C11_fixed_scale`, `C11_fixed_scale_returns`, `C11_fixed_div_scalar`, `C27_mono_term_update`, `C27_bino_term_update`, `C27_trino_term_update`, `C27_array_term_update`, `C27_fixed_term_update_returns`, `C50_mono_arith`, `C50_bino_arith`, `C50_trino_arith`, `C50_fixed_arith_returns`, `C12_fixed_eval`, `C12_fixed_eval_returns`, `C13_fixed_derivative`, `C13_fixed_derivative_int_returns`, `C14_fixed_integral`, `C14_fixed_integral_exact`, `C14_fixed_integral_int`, `C15_mono_shift`, `C15_mono_shift_returns`, `C17_mono_shift_min`, `C51_mono_truncates`, `C51_mono_refuted`, `C52_mono_checked`, `C52_mono_wraps_refuted`, `C54_array_listing_partial`, `C54_array_listing_wrong`, `C54_array_listing_refuted`, `C26_dense_history`, `C26_sparse_history`, `C26_fixed_history`, `C26_last_reset`, `C26_net_sum`, `C26_err_unchanged`, `C26_signed_never_errs`, `C26_dense_returns`, `C26_sparse_returns`, `C28_zero_term_partial`, `C28_zero_term_refuted`, `C29_unsigned_missing_partial`, `C29_unsigned_stored_refuted`, `C30_sinks`, `C30_add_sub_poly`, `C30_add_polynomial`, `C30_mul_poly_vec`, `C30_macros_into`, `C30_macros_errors`, `C30_poly_add_never_errs`, `C30_poly_add_sum`, `C30_poly_add_total`, `C31_poly_sub_signed_partial`, `C31_poly_sub_unsigned_refuted`, `C34_tokens_partition`, `C34_tokens_unique`, `C34_byte_ranges`, `C36_separators_ignored`, `C36_term_language`, `C36_integer_text`, `C36_integer_text_only`, `C37_no_caret_refuted`, `C37_degree_error_never`, `C35_parsed_sum`, `C35_errors`, `C35_succeeds`, `C35_order_irrelevant`, `C38_no_panic_partial`, `C38_no_panic_checked_partial`, `C38_dense_refuted`, `C32_dense_round_trip`, `C32_sparse_round_trip`, `C32_linear_quadratic_round_trip`, `C32_mono_round_trip`, `C33_checked_panics_refuted`, `C33_wrapping_unreadable_refuted`, `C14_eval_difference`, `C14_eval_returns`, `C14_eval_additive`, `C14_replace_c`, `C14_replace_c_returns`, `C14_constant_of_integration`, `C53_integral_display`, `C53_only_zero_prints_C`, `C47_unsigned`, `C47_signed`, `C47_signed_min_checked`, `C48_integers`, `C43_linear`, `C43_linear_int`, `C43_monomial`, `C41_even_sum_partial`, `C41_odd_sum_wrong`, `C41_refuted`, `C41_zero_leading_panics`, `C45_classify`, `C45_formula`, `C45_never_unreachable`, `C46_terminates`, `C46_sound`, `C46_sparse_huge_degree_panics`, `C61_mul`, `C61_pow`, `C61_eval`, `C61_eval_nonneg`, `C61_converse_refuted`, `C62_dense_program`, `C62_sparse_program`, `C62_dense_sparse_agree`, `C62_same_meaning_equal`, `C62_laws`, `C62_int_laws`, `C63_eval_program`, `C63_eval_sparse_program`, `C62_int_wrapping_program`, `C63_eval_int_wrapping`, `C11_int_quotient_meaning`, `C11_dense_div_int`, `C11_sparse_div_int`, `C11_fixed_div_int`, `C72_degree`, `C72_terms`, `C72_coefficient`, `C72_coefficients_kept`, `C72_equality`, `C73_equivalence`, `C73_int`, `C74_dense_product`, `C74_dense_sum`, `C74_dense_calculus`, `C74_sparse`, `C74_int_checked`, `C74_wrapping_refuted`, `C75_remainder`, `C75_factor`, `C75_returns`, `C76_dense`, `C76_sparse`, `C76_root_count`, `C76_wrapping_refuted`, `C79_term_error`, `C79_error_tells`, `C79_messages`, `C79_polynomial_error`, `C79_exponent_refuted`, `C72_trim`, `C82_constant`, `C85_dense`, `C85_sparse`, `C85_value`, `C85_conj`, `C85_div_mod`, `C85_degree`, `C85_remainder`, `C85_real`, `C85_returns`, `C92_trim`, `C92_canonical`, `C92_dense`, `C92_dense_division`, `C92_dense_sums`, `C92_dense_eval`, `C92_int_zero_returns`, `C92_sparse_values`, `C92_sparse_sums`, `C92_sparse_eval_wrapping`, `C92_sparse_eval_refuted`, `C92_sparse_mul_refuted`, `C92_sparse_integral_refuted`, `C93_spaces`, `C93_separators`, `C93_leading_separator`, `C93_separators_refuted`, `C93_alphabet`, `C93_leading_plus`, `C95_text`, `C95_integers`, `C95_equal_text`, `C15_sparse_shl_shr`, `C15_mono_shl_shr`, `C18_dense_div_mod_rounds`, `C74_sparse_scale`, `C85_sparse_power`, `C85_sparse_degree`, `C85_sparse_div_mod`, `C97_real`, `C97_complex`, `C97_refuted`, `C99_int`, `C100_congruence`, `C100_linear`, `C100_product`, `C100_multiple_value`, `C100_field`, `C100_gcd`, `C101_formula`, `C101_evaluation`, `C101_exact`, `C104_arithmetic`, `C104_division`, `C104_power`, `C104_derivative`, `C105_slope`, `C105_repeated`, `C105_multiplicity`, `C106_difference`, `C106_integers`, `C106_integers_wrapping`, `C109_tangent`, `C109_newton`, `C109_newton_wrapping`, `C111_lowest`, `C112_expansion`, `C112_slope`, `C112_int`, `C112_int_wrapping`, `C113_differences`, `C113_int`, `C113_int_wrapping`, `C114_coefficients`, `C114_int`, `C114_int_wrapping`

**`ClassicalDedekindReals.sig_forall_dec`, `FunctionalExtensionality.functional_extensionality_dep`** (4):
`C71_derivative_is_slope`, `C85_types`, `C111_sign`, `C111_enclosure`

**`ClassicalDedekindReals.sig_forall_dec`, `ClassicalDedekindReals.sig_not_dec`, `FunctionalExtensionality.functional_extensionality_dep`** (21):
`C39_discriminant`, `C39_real_roots`, `C39_complex_roots`, `C40_order_partial`, `C40_negative_leading`, `C40_order_refuted`, `C42_real_factors`, `C42_complex_factors_real_partial`, `C42_complex_factors_nonreal`, `C42_complex_factors_refuted`, `C44_cubic_roots_partial`, `C44_cubic_wrong`, `C44_three_distinct_roots_refuted`, `C46_real`, `C80_small_partial`, `C80_large`, `C80_multiple_zero_refuted`, `C87_small_partial`, `C87_real_partial`, `C87_cubic_refuted`, `C111_bracket`

**`ClassicalDedekindReals.sig_forall_dec`, `ClassicalDedekindReals.sig_not_dec`, `Classical_Prop.classic`, `FunctionalExtensionality.functional_extensionality_dep`** (205):
`C48_float_cont`, `C48_f32_limit_tight`, `C48_float_exact_partial`, `C48_float_exact_refuted`, `C49_value`, `C49_equality`, `C49_dense`, `C49_sparse`, `C49_fixed`, `C55_nontermination_refuted`, `C55_quotient_overwritten_refuted`, `C55_monic_partial`, `C45_float_returns`, `C46_float_returns_or_hangs`, `C46_float_deflation_ends_iff`, `C46_float_deflation_bounded`, `C46_float_nonfinite_leading_hangs`, `C46_float_termination_refuted`, `C57_inputs`, `C57_dense`, `C57_sparse`, `C57_fixed`, `C57_int_division`, `C57_float_source_refuted`, `C57_release_source_refuted`, `C57_float_division_refuted`, `C58_dense`, `C58_sparse`, `C58_fixed`, `C58_text`, `C58_roots`, `C58_converse_refuted`, `C60_display`, `C60_parse`, `C60_narrower_refuted`, `C59_dense_linear`, `C59_dense_mul`, `C59_dense_pow`, `C59_eval`, `C59_dense_derivative`, `C59_sparse_linear`, `C59_sparse_mul`, `C59_sparse_pow`, `C59_sparse_derivative`, `C59_range_refuted`, `C64_dense_add`, `C64_dense_add_assign`, `C64_dense_sub`, `C64_dense_neg`, `C64_dense_scale`, `C64_dense_derivative`, `C64_dense_integral`, `C64_sparse`, `C64_dense_rounded`, `C64_dense_scalar_rounded`, `C64_dense_calculus_rounded`, `C65_error`, `C65_error_gamma`, `C65_finite`, `C65_binomial`, `C65_trinomial`, `C66_dense_mul`, `C66_sparse_mul`, `C66_dense_mul_returns`, `C67_dense_add_comm`, `C67_sparse_add_comm`, `C67_mul_comm_bound`, `C67_mul_comm_refuted`, `C67_add_assoc_refuted`, `C67_distr_refuted`, `C67_eval_sum_refuted`, `C68_linear_root`, `C68_no_leading`, `C69_classification`, `C69_whole_roots`, `C70_residual`, `C70_polynomial`, `C70_relative_accuracy_refuted`, `C70_overflow_refuted`, `C71_integral_is_area`, `C71_calculus_returns`, `C72_float`, `C73_float_partial`, `C73_reflexive_refuted`, `C74_float_refuted`, `C77_dense`, `C77_sparse`, `C77_linear`, `C77_quadratic`, `C77_mono`, `C77_nonfinite_refuted`, `C78_nearest`, `C78_sum`, `C78_finite_refuted`, `C81_history`, `C81_fixed`, `C81_monomial`, `C81_representations_agree`, `C82_types`, `C82_value`, `C83_sparse_calculus`, `C83_agree`, `C83_mul_bound`, `C83_mul_refuted`, `C83_scale_refuted`, `C84_sparse`, `C84_monomial`, `C84_agree`, `C84_exponent`, `C84_exponent_refuted`, `C86_exact`, `C86_sparse_exact`, `C86_sub_self`, `C86_sub_self_refuted`, `C86_power_of_two`, `C86_sparse_power_of_two`, `C86_scale`, `C86_sparse_scale`, `C86_add_sub`, `C86_sparse_add_sub`, `C86_integral_derivative`, `C86_sparse_integral_derivative`, `C86_undo_refuted`, `C88_recombine`, `C88_rem_assign`, `C88_undone`, `C88_whole`, `C88_whole_unique`, `C88_monic`, `C89_integral`, `C89_slope`, `C89_array`, `C89_binomial`, `C89_trinomial`, `C90_sign`, `C90_bracket`, `C90_count`, `C91_powi`, `C91_sparse`, `C91_monomial`, `C91_powi_whole`, `C91_whole`, `C92_float_eval_refuted`, `C94_integral`, `C94_slope`, `C94_monomial_slope`, `C94_monomial_integral`, `C95_floats`, `C55_half_power_partial`, `C55_underflow_refuted`, `C69_distinct`, `C58_poly_math`, `C58_rest`, `C78_monomial`, `C96_small`, `C96_large`, `C96_equal`, `C96_underflow`, `C96_lossless`, `C96_equal_refuted`, `C98_none`, `C98_whole_roots`, `C98_rounded`, `C98_complex_wrong`, `C98_pure`, `C98_refuted`, `C99_float`, `C99_refuted`, `C101_float`, `C70_sparse_polynomial`, `C102_power`, `C102_integers`, `C102_positive`, `C102_spacing_needed`, `C102_sparse`, `C102_two_terms`, `C102_finite`, `C103_dense`, `C103_division`, `C103_even_odd`, `C103_quadratic_roots`, `C103_sparse`, `C103_sparse_eval`, `C103_sparse_division`, `C103_powi`, `C103_sparse_even_odd`, `C107_eval`, `C107_monotone`, `C107_arithmetic`, `C107_scalar`, `C107_calculus`, `C107_multiply`, `C107_power`, `C107_sparse`, `C107_sparse_eval`, `C108_error`, `C108_sign`, `C108_root`, `C108_no_root`, `C110_sum`, `C110_operators`, `C110_macros`, `C110_product`, `C110_multiply`, `C110_sparse_multiply`
