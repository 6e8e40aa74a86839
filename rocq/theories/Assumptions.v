(** Generated by tools/manifest.py: the axioms every property theorem depends on. *)

From Verif Require Import P_Dense1 P_Dense2 P_Sparse1 P_Sparse2 P_Fixed1 P_Fixed2 P_Mut P_Str P_Str2 P_Str3 P_Integral P_Num P_Upcast P_FloatDiv P_Roots1 P_Roots2 P_Roots3 P_Roots4 P_Sim1 P_Sim2 P_Sim3 P_Bounded P_Exact P_Expr P_FloatErr P_IntDiv P_FloatQuad P_FloatQuad2 P_Analytic P_Struct P_Degree P_FloatText P_Err P_Mult P_FloatMut P_Const P_FloatRep P_FloatPow P_Complex P_FloatUndo P_RootsEval P_FloatDivErr P_FloatCalc P_FloatPowi P_Equal P_Spacing P_FloatSparseCalc P_TextCanon P_Rounds P_FloatDiv2 P_FloatQuad3 P_Sim5 P_DegreeScale P_FloatText2 P_Complex2 P_FloatSparseDiv P_IntFactors P_FloatFactors P_RootOrder P_Modular P_RootsRep P_FloatPolyPow P_FloatSparsePow P_FloatPowFinite P_FloatMirror P_FloatMirror2 P_IntLimits P_RepeatedRoots P_FloatBound P_FloatSign P_Newton P_FloatSink P_RealRoots P_Taylor P_Differences P_Derivs.

(** P_Dense1 *)
Print Assumptions C01_new_strips_leading_zeros.
Print Assumptions C01_new_keeps_coefficients.
Print Assumptions C02_dense_degree.
Print Assumptions C02_dense_is_zero.
Print Assumptions C03_dense_listing.
Print Assumptions C04_dense_term_with_degree.
Print Assumptions C05_dense_eq.
Print Assumptions C06_dense_add.
Print Assumptions C06_dense_add_trimmed.
Print Assumptions C06_dense_add_returns.
Print Assumptions C06_dense_add_int_checked.
Print Assumptions C06_dense_add_int_wrapping.
Print Assumptions C07_dense_sub.
Print Assumptions C07_dense_sub_returns.
Print Assumptions C07_dense_sub_ref_same.
Print Assumptions C07_dense_neg.
Print Assumptions C07_dense_neg_returns.
Print Assumptions C07_dense_sub_int_checked.
Print Assumptions C07_dense_sub_int_wrapping.
Print Assumptions C08_dense_mul.
Print Assumptions C08_dense_mul_returns.
Print Assumptions C08_dense_mul_int_checked_returns.
Print Assumptions C08_dense_mul_int_nonneg_returns.
Print Assumptions C08_dense_mul_int_wrapping.
Print Assumptions C09_zero_times_nonzero_partial.
Print Assumptions C09_zero_times_zero_panics.
Print Assumptions C09_zero_times_zero_refuted.
Print Assumptions C10_dense_pow.
Print Assumptions C10_dense_pow_terminates.
Print Assumptions C10_dense_pow_returns.
Print Assumptions C10_dense_pow_zero_panics.
Print Assumptions C11_dense_scale.
Print Assumptions C11_dense_scale_returns.
Print Assumptions C11_dense_div_scalar.
Print Assumptions C11_dense_div_scalar_op.
Print Assumptions C11_dense_div_scalar_exact.
Print Assumptions C11_dense_div_scalar_by_zero.

(** P_Dense2 *)
Print Assumptions C12_dense_eval.
Print Assumptions C12_dense_eval_returns.
Print Assumptions C12_dense_eval_at_zero.
Print Assumptions C12_dense_eval_hom.
Print Assumptions C12_dense_eval_int_wrapping.
Print Assumptions C13_dense_derivative.
Print Assumptions C13_dense_derivative_returns.
Print Assumptions C13_dense_derivative_int_checked_returns.
Print Assumptions C14_dense_integral.
Print Assumptions C14_dense_integral_exact.
Print Assumptions C14_dense_integral_int.
Print Assumptions C15_dense_shift.
Print Assumptions C15_dense_shift_assign_returns.
Print Assumptions C15_dense_shl_shr.
Print Assumptions C16_dense_shr_characterisation.
Print Assumptions C16_dense_shr_trimmed_partial.
Print Assumptions C16_dense_shr_refuted.
Print Assumptions C17_dense_shift_min.
Print Assumptions C17_shift_min_refuted.
Print Assumptions C17_shift_other_partial.
Print Assumptions C18_dense_div_mod.
Print Assumptions C18_dense_div_mod_int_checked.
Print Assumptions C18_dense_div_mod_int_wrapping.
Print Assumptions C18_dense_div_mod_unique.
Print Assumptions C18_dense_div_mod_field.
Print Assumptions C18_dense_floor_div.
Print Assumptions C19_dense_div_mod_diverges.
Print Assumptions C19_dense_div_mod_refuted.
Print Assumptions C19_dense_div_mod_terminates_partial.
Print Assumptions C20_dense_rem_assign.
Print Assumptions C20_dense_rem_assign_field.
Print Assumptions C20_dense_rem_small_partial.
Print Assumptions C20_dense_rem_never.
Print Assumptions C20_dense_rem_refuted.
Print Assumptions C21_dense_zero_divisor.
Print Assumptions C21_dense_only_zero_divisor.
Print Assumptions C56_derivative_panics_early_refuted.
Print Assumptions C56_derivative_partial.

(** P_Sparse1 *)
Print Assumptions C02_sparse_degree.
Print Assumptions C03_sparse_listing.
Print Assumptions C03_dense_sparse_listing.
Print Assumptions C04_sparse_term_with_degree.
Print Assumptions C05_sparse_eq.
Print Assumptions C11_sparse_scale.
Print Assumptions C11_sparse_scale_returns.
Print Assumptions C11_sparse_div.
Print Assumptions C11_sparse_div_exact.
Print Assumptions C23_sparse_add.
Print Assumptions C23_sparse_sub.
Print Assumptions C23_sparse_neg.
Print Assumptions C23_sparse_sub_dense.
Print Assumptions C23_sparse_returns.
Print Assumptions C23_sparse_int_wrapping.
Print Assumptions C24_sparse_mul.
Print Assumptions C24_dense_sparse_agree.
Print Assumptions C24_sparse_mul_returns.
Print Assumptions C24_sparse_mul_int_wrapping.
Print Assumptions C10_sparse_pow.
Print Assumptions C10_sparse_pow_terminates.
Print Assumptions C10_sparse_pow_int_wrapping.
Print Assumptions C25_from_vec.
Print Assumptions C25_from_terms.
Print Assumptions C25_from_terms_returns.

(** P_Sparse2 *)
Print Assumptions C12_sparse_eval.
Print Assumptions C12_sparse_eval_int_wrapping.
Print Assumptions C12_dense_sparse_eval_agree.
Print Assumptions C51_sparse_eval_truncates.
Print Assumptions C51_sparse_eval_refuted.
Print Assumptions C13_sparse_derivative.
Print Assumptions C13_sparse_derivative_returns.
Print Assumptions C14_sparse_integral_exact.
Print Assumptions C14_sparse_integral_int.
Print Assumptions C15_sparse_shift.
Print Assumptions C15_sparse_shift_returns.
Print Assumptions C17_sparse_shift_min.
Print Assumptions C21_sparse_zero_divisor.
Print Assumptions C21_sparse_only_zero_divisor.
Print Assumptions C22_sparse_div_mod_partial.
Print Assumptions C22_sparse_rem_partial.
Print Assumptions C22_sparse_div_mod_returns_iff.
Print Assumptions C22_sparse_never.
Print Assumptions C22_sparse_div_mod_refuted.
Print Assumptions C52_sparse_checked.
Print Assumptions C52_sparse_shift_checked.
Print Assumptions C52_sparse_wraps_refuted.

(** P_Fixed1 *)
Print Assumptions C02_fixed_degree.
Print Assumptions C02_fixed_is_zero.
Print Assumptions C03_fixed_listing.
Print Assumptions C04_fixed_term_with_degree.
Print Assumptions C05_fixed_eq.
Print Assumptions C11_fixed_scale.
Print Assumptions C11_fixed_scale_returns.
Print Assumptions C11_fixed_div_scalar.
Print Assumptions C27_mono_term_update.
Print Assumptions C27_bino_term_update.
Print Assumptions C27_trino_term_update.
Print Assumptions C27_array_term_update.
Print Assumptions C27_fixed_term_update_returns.
Print Assumptions C50_mono_arith.
Print Assumptions C50_bino_arith.
Print Assumptions C50_trino_arith.
Print Assumptions C50_fixed_arith_returns.

(** P_Fixed2 *)
Print Assumptions C12_fixed_eval.
Print Assumptions C12_fixed_eval_returns.
Print Assumptions C13_fixed_derivative.
Print Assumptions C13_fixed_derivative_int_returns.
Print Assumptions C14_fixed_integral.
Print Assumptions C14_fixed_integral_exact.
Print Assumptions C14_fixed_integral_int.
Print Assumptions C15_mono_shift.
Print Assumptions C15_mono_shift_returns.
Print Assumptions C17_mono_shift_min.
Print Assumptions C51_mono_truncates.
Print Assumptions C51_mono_refuted.
Print Assumptions C52_mono_checked.
Print Assumptions C52_mono_wraps_refuted.
Print Assumptions C54_array_listing_partial.
Print Assumptions C54_array_listing_wrong.
Print Assumptions C54_array_listing_refuted.

(** P_Mut *)
Print Assumptions C26_dense_history.
Print Assumptions C26_sparse_history.
Print Assumptions C26_fixed_history.
Print Assumptions C26_last_reset.
Print Assumptions C26_net_sum.
Print Assumptions C26_err_unchanged.
Print Assumptions C26_signed_never_errs.
Print Assumptions C26_dense_returns.
Print Assumptions C26_sparse_returns.
Print Assumptions C28_zero_term_partial.
Print Assumptions C28_zero_term_refuted.
Print Assumptions C29_unsigned_missing_partial.
Print Assumptions C29_unsigned_stored_refuted.
Print Assumptions C30_sinks.
Print Assumptions C30_add_sub_poly.
Print Assumptions C30_add_polynomial.
Print Assumptions C30_mul_poly_vec.
Print Assumptions C30_macros_into.
Print Assumptions C30_macros_errors.
Print Assumptions C30_poly_add_never_errs.
Print Assumptions C30_poly_add_sum.
Print Assumptions C30_poly_add_total.
Print Assumptions C31_poly_sub_signed_partial.
Print Assumptions C31_poly_sub_unsigned_refuted.

(** P_Str *)
Print Assumptions C34_tokens_partition.
Print Assumptions C34_tokens_unique.
Print Assumptions C34_byte_ranges.
Print Assumptions C36_separators_ignored.
Print Assumptions C36_term_language.
Print Assumptions C36_integer_text.
Print Assumptions C36_integer_text_only.
Print Assumptions C37_no_caret_refuted.
Print Assumptions C37_degree_error_never.

(** P_Str2 *)
Print Assumptions C35_parsed_sum.
Print Assumptions C35_errors.
Print Assumptions C35_succeeds.
Print Assumptions C35_order_irrelevant.
Print Assumptions C38_no_panic_partial.
Print Assumptions C38_no_panic_checked_partial.
Print Assumptions C38_dense_refuted.

(** P_Str3 *)
Print Assumptions C32_dense_round_trip.
Print Assumptions C32_sparse_round_trip.
Print Assumptions C32_linear_quadratic_round_trip.
Print Assumptions C32_mono_round_trip.
Print Assumptions C33_checked_panics_refuted.
Print Assumptions C33_wrapping_unreadable_refuted.

(** P_Integral *)
Print Assumptions C14_eval_difference.
Print Assumptions C14_eval_returns.
Print Assumptions C14_eval_additive.
Print Assumptions C14_replace_c.
Print Assumptions C14_replace_c_returns.
Print Assumptions C14_constant_of_integration.
Print Assumptions C53_integral_display.
Print Assumptions C53_only_zero_prints_C.

(** P_Num *)
Print Assumptions C47_unsigned.
Print Assumptions C47_signed.
Print Assumptions C47_signed_min_checked.
Print Assumptions C48_integers.
Print Assumptions C48_float_cont.
Print Assumptions C48_f32_limit_tight.
Print Assumptions C48_float_exact_partial.
Print Assumptions C48_float_exact_refuted.

(** P_Upcast *)
Print Assumptions C49_value.
Print Assumptions C49_equality.
Print Assumptions C49_dense.
Print Assumptions C49_sparse.
Print Assumptions C49_fixed.

(** P_FloatDiv *)
Print Assumptions C55_nontermination_refuted.
Print Assumptions C55_quotient_overwritten_refuted.
Print Assumptions C55_monic_partial.

(** P_Roots1 *)
Print Assumptions C39_discriminant.
Print Assumptions C39_real_roots.
Print Assumptions C39_complex_roots.
Print Assumptions C40_order_partial.
Print Assumptions C40_negative_leading.
Print Assumptions C40_order_refuted.
Print Assumptions C42_real_factors.
Print Assumptions C42_complex_factors_real_partial.
Print Assumptions C42_complex_factors_nonreal.
Print Assumptions C42_complex_factors_refuted.
Print Assumptions C43_linear.
Print Assumptions C43_linear_int.
Print Assumptions C43_monomial.
Print Assumptions C44_cubic_roots_partial.
Print Assumptions C44_cubic_wrong.
Print Assumptions C44_three_distinct_roots_refuted.

(** P_Roots2 *)
Print Assumptions C41_even_sum_partial.
Print Assumptions C41_odd_sum_wrong.
Print Assumptions C41_refuted.
Print Assumptions C41_zero_leading_panics.

(** P_Roots3 *)
Print Assumptions C45_classify.
Print Assumptions C45_formula.
Print Assumptions C45_never_unreachable.
Print Assumptions C45_float_returns.

(** P_Roots4 *)
Print Assumptions C46_terminates.
Print Assumptions C46_sound.
Print Assumptions C46_real.
Print Assumptions C46_sparse_huge_degree_panics.
Print Assumptions C46_float_returns_or_hangs.
Print Assumptions C46_float_deflation_ends_iff.
Print Assumptions C46_float_deflation_bounded.
Print Assumptions C46_float_nonfinite_leading_hangs.
Print Assumptions C46_float_termination_refuted.

(** P_Sim1 *)
Print Assumptions C57_inputs.
Print Assumptions C57_dense.
Print Assumptions C57_sparse.
Print Assumptions C57_fixed.
Print Assumptions C57_int_division.
Print Assumptions C57_float_source_refuted.
Print Assumptions C57_release_source_refuted.
Print Assumptions C57_float_division_refuted.

(** P_Sim2 *)
Print Assumptions C58_dense.
Print Assumptions C58_sparse.
Print Assumptions C58_fixed.
Print Assumptions C58_text.
Print Assumptions C58_roots.
Print Assumptions C58_converse_refuted.

(** P_Sim3 *)
Print Assumptions C60_display.
Print Assumptions C60_parse.
Print Assumptions C60_narrower_refuted.

(** P_Bounded *)
Print Assumptions C61_mul.
Print Assumptions C61_pow.
Print Assumptions C61_eval.
Print Assumptions C61_eval_nonneg.
Print Assumptions C61_converse_refuted.

(** P_Exact *)
Print Assumptions C59_dense_linear.
Print Assumptions C59_dense_mul.
Print Assumptions C59_dense_pow.
Print Assumptions C59_eval.
Print Assumptions C59_dense_derivative.
Print Assumptions C59_sparse_linear.
Print Assumptions C59_sparse_mul.
Print Assumptions C59_sparse_pow.
Print Assumptions C59_sparse_derivative.
Print Assumptions C59_range_refuted.

(** P_Expr *)
Print Assumptions C62_dense_program.
Print Assumptions C62_sparse_program.
Print Assumptions C62_dense_sparse_agree.
Print Assumptions C62_same_meaning_equal.
Print Assumptions C62_laws.
Print Assumptions C62_int_laws.
Print Assumptions C63_eval_program.
Print Assumptions C63_eval_sparse_program.
Print Assumptions C62_int_wrapping_program.
Print Assumptions C63_eval_int_wrapping.

(** P_FloatErr *)
Print Assumptions C64_dense_add.
Print Assumptions C64_dense_add_assign.
Print Assumptions C64_dense_sub.
Print Assumptions C64_dense_neg.
Print Assumptions C64_dense_scale.
Print Assumptions C64_dense_derivative.
Print Assumptions C64_dense_integral.
Print Assumptions C64_sparse.
Print Assumptions C64_dense_rounded.
Print Assumptions C64_dense_scalar_rounded.
Print Assumptions C64_dense_calculus_rounded.
Print Assumptions C65_error.
Print Assumptions C65_error_gamma.
Print Assumptions C65_finite.
Print Assumptions C65_binomial.
Print Assumptions C65_trinomial.
Print Assumptions C66_dense_mul.
Print Assumptions C66_sparse_mul.
Print Assumptions C66_dense_mul_returns.
Print Assumptions C67_dense_add_comm.
Print Assumptions C67_sparse_add_comm.
Print Assumptions C67_mul_comm_bound.
Print Assumptions C67_mul_comm_refuted.
Print Assumptions C67_add_assoc_refuted.
Print Assumptions C67_distr_refuted.
Print Assumptions C67_eval_sum_refuted.

(** P_IntDiv *)
Print Assumptions C11_int_quotient_meaning.
Print Assumptions C11_dense_div_int.
Print Assumptions C11_sparse_div_int.
Print Assumptions C11_fixed_div_int.

(** P_FloatQuad *)
Print Assumptions C68_linear_root.
Print Assumptions C68_no_leading.
Print Assumptions C69_classification.
Print Assumptions C69_whole_roots.
Print Assumptions C70_residual.

(** P_FloatQuad2 *)
Print Assumptions C70_polynomial.
Print Assumptions C70_relative_accuracy_refuted.
Print Assumptions C70_overflow_refuted.

(** P_Analytic *)
Print Assumptions C71_derivative_is_slope.
Print Assumptions C71_integral_is_area.
Print Assumptions C71_calculus_returns.

(** P_Struct *)
Print Assumptions C72_degree.
Print Assumptions C72_terms.
Print Assumptions C72_coefficient.
Print Assumptions C72_coefficients_kept.
Print Assumptions C72_equality.
Print Assumptions C72_float.
Print Assumptions C73_equivalence.
Print Assumptions C73_int.
Print Assumptions C73_float_partial.
Print Assumptions C73_reflexive_refuted.

(** P_Degree *)
Print Assumptions C74_dense_product.
Print Assumptions C74_dense_sum.
Print Assumptions C74_dense_calculus.
Print Assumptions C74_sparse.
Print Assumptions C74_int_checked.
Print Assumptions C74_wrapping_refuted.
Print Assumptions C74_float_refuted.
Print Assumptions C75_remainder.
Print Assumptions C75_factor.
Print Assumptions C75_returns.
Print Assumptions C76_dense.
Print Assumptions C76_sparse.
Print Assumptions C76_root_count.
Print Assumptions C76_wrapping_refuted.

(** P_FloatText *)
Print Assumptions C77_dense.
Print Assumptions C77_sparse.
Print Assumptions C77_linear.
Print Assumptions C77_quadratic.
Print Assumptions C77_mono.
Print Assumptions C77_nonfinite_refuted.
Print Assumptions C78_nearest.
Print Assumptions C78_sum.
Print Assumptions C78_finite_refuted.

(** P_Err *)
Print Assumptions C79_term_error.
Print Assumptions C79_error_tells.
Print Assumptions C79_messages.
Print Assumptions C79_polynomial_error.
Print Assumptions C79_exponent_refuted.

(** P_Mult *)
Print Assumptions C80_small_partial.
Print Assumptions C80_large.
Print Assumptions C80_multiple_zero_refuted.

(** P_FloatMut *)
Print Assumptions C81_history.
Print Assumptions C81_fixed.
Print Assumptions C81_monomial.
Print Assumptions C81_representations_agree.
Print Assumptions C72_trim.

(** P_Const *)
Print Assumptions C82_constant.
Print Assumptions C82_types.
Print Assumptions C82_value.

(** P_FloatRep *)
Print Assumptions C83_sparse_calculus.
Print Assumptions C83_agree.
Print Assumptions C83_mul_bound.
Print Assumptions C83_mul_refuted.
Print Assumptions C83_scale_refuted.

(** P_FloatPow *)
Print Assumptions C84_sparse.
Print Assumptions C84_monomial.
Print Assumptions C84_agree.
Print Assumptions C84_exponent.
Print Assumptions C84_exponent_refuted.

(** P_Complex *)
Print Assumptions C85_dense.
Print Assumptions C85_sparse.
Print Assumptions C85_value.
Print Assumptions C85_conj.
Print Assumptions C85_div_mod.
Print Assumptions C85_types.
Print Assumptions C85_degree.
Print Assumptions C85_remainder.
Print Assumptions C85_real.
Print Assumptions C85_returns.

(** P_FloatUndo *)
Print Assumptions C86_exact.
Print Assumptions C86_sparse_exact.
Print Assumptions C86_sub_self.
Print Assumptions C86_sub_self_refuted.
Print Assumptions C86_power_of_two.
Print Assumptions C86_sparse_power_of_two.
Print Assumptions C86_scale.
Print Assumptions C86_sparse_scale.
Print Assumptions C86_add_sub.
Print Assumptions C86_sparse_add_sub.
Print Assumptions C86_integral_derivative.
Print Assumptions C86_sparse_integral_derivative.
Print Assumptions C86_undo_refuted.

(** P_RootsEval *)
Print Assumptions C87_small_partial.
Print Assumptions C87_real_partial.
Print Assumptions C87_cubic_refuted.

(** P_FloatDivErr *)
Print Assumptions C88_recombine.
Print Assumptions C88_rem_assign.
Print Assumptions C88_undone.
Print Assumptions C88_whole.
Print Assumptions C88_whole_unique.
Print Assumptions C88_monic.

(** P_FloatCalc *)
Print Assumptions C89_integral.
Print Assumptions C89_slope.
Print Assumptions C89_array.
Print Assumptions C89_binomial.
Print Assumptions C89_trinomial.
Print Assumptions C90_sign.
Print Assumptions C90_bracket.
Print Assumptions C90_count.

(** P_FloatPowi *)
Print Assumptions C91_powi.
Print Assumptions C91_sparse.
Print Assumptions C91_monomial.
Print Assumptions C91_powi_whole.
Print Assumptions C91_whole.
Print Assumptions C92_float_eval_refuted.

(** P_Equal *)
Print Assumptions C92_trim.
Print Assumptions C92_canonical.
Print Assumptions C92_dense.
Print Assumptions C92_dense_division.
Print Assumptions C92_dense_sums.
Print Assumptions C92_dense_eval.
Print Assumptions C92_int_zero_returns.
Print Assumptions C92_sparse_values.
Print Assumptions C92_sparse_sums.
Print Assumptions C92_sparse_eval_wrapping.
Print Assumptions C92_sparse_eval_refuted.
Print Assumptions C92_sparse_mul_refuted.
Print Assumptions C92_sparse_integral_refuted.

(** P_Spacing *)
Print Assumptions C93_spaces.
Print Assumptions C93_separators.
Print Assumptions C93_leading_separator.
Print Assumptions C93_separators_refuted.
Print Assumptions C93_alphabet.
Print Assumptions C93_leading_plus.

(** P_FloatSparseCalc *)
Print Assumptions C94_integral.
Print Assumptions C94_slope.
Print Assumptions C94_monomial_slope.
Print Assumptions C94_monomial_integral.

(** P_TextCanon *)
Print Assumptions C95_text.
Print Assumptions C95_integers.
Print Assumptions C95_floats.
Print Assumptions C95_equal_text.

(** P_Rounds *)
Print Assumptions C15_sparse_shl_shr.
Print Assumptions C15_mono_shl_shr.
Print Assumptions C18_dense_div_mod_rounds.

(** P_FloatDiv2 *)
Print Assumptions C55_half_power_partial.
Print Assumptions C55_underflow_refuted.

(** P_FloatQuad3 *)
Print Assumptions C69_distinct.

(** P_Sim5 *)
Print Assumptions C58_poly_math.
Print Assumptions C58_rest.

(** P_DegreeScale *)
Print Assumptions C74_sparse_scale.

(** P_FloatText2 *)
Print Assumptions C78_monomial.

(** P_Complex2 *)
Print Assumptions C85_sparse_power.
Print Assumptions C85_sparse_degree.
Print Assumptions C85_sparse_div_mod.

(** P_FloatSparseDiv *)
Print Assumptions C96_small.
Print Assumptions C96_large.
Print Assumptions C96_equal.
Print Assumptions C96_underflow.
Print Assumptions C96_lossless.
Print Assumptions C96_equal_refuted.

(** P_IntFactors *)
Print Assumptions C97_real.
Print Assumptions C97_complex.
Print Assumptions C97_refuted.

(** P_FloatFactors *)
Print Assumptions C98_none.
Print Assumptions C98_whole_roots.
Print Assumptions C98_rounded.
Print Assumptions C98_complex_wrong.
Print Assumptions C98_pure.
Print Assumptions C98_refuted.

(** P_RootOrder *)
Print Assumptions C99_float.
Print Assumptions C99_int.
Print Assumptions C99_refuted.

(** P_Modular *)
Print Assumptions C100_congruence.
Print Assumptions C100_linear.
Print Assumptions C100_product.
Print Assumptions C100_multiple_value.
Print Assumptions C100_field.
Print Assumptions C100_gcd.

(** P_RootsRep *)
Print Assumptions C101_formula.
Print Assumptions C101_evaluation.
Print Assumptions C101_exact.
Print Assumptions C101_float.
Print Assumptions C70_sparse_polynomial.

(** P_FloatPolyPow *)
Print Assumptions C102_power.
Print Assumptions C102_integers.
Print Assumptions C102_positive.
Print Assumptions C102_spacing_needed.

(** P_FloatSparsePow *)
Print Assumptions C102_sparse.
Print Assumptions C102_two_terms.

(** P_FloatPowFinite *)
Print Assumptions C102_finite.

(** P_FloatMirror *)
Print Assumptions C103_dense.
Print Assumptions C103_division.
Print Assumptions C103_even_odd.
Print Assumptions C103_quadratic_roots.

(** P_FloatMirror2 *)
Print Assumptions C103_sparse.
Print Assumptions C103_sparse_eval.
Print Assumptions C103_sparse_division.
Print Assumptions C103_powi.
Print Assumptions C103_sparse_even_odd.

(** P_IntLimits *)
Print Assumptions C104_arithmetic.
Print Assumptions C104_division.
Print Assumptions C104_power.
Print Assumptions C104_derivative.

(** P_RepeatedRoots *)
Print Assumptions C105_slope.
Print Assumptions C105_repeated.
Print Assumptions C105_multiplicity.
Print Assumptions C106_difference.
Print Assumptions C106_integers.
Print Assumptions C106_integers_wrapping.

(** P_FloatBound *)
Print Assumptions C107_eval.
Print Assumptions C107_monotone.
Print Assumptions C107_arithmetic.
Print Assumptions C107_scalar.
Print Assumptions C107_calculus.
Print Assumptions C107_multiply.
Print Assumptions C107_power.
Print Assumptions C107_sparse.
Print Assumptions C107_sparse_eval.

(** P_FloatSign *)
Print Assumptions C108_error.
Print Assumptions C108_sign.
Print Assumptions C108_root.
Print Assumptions C108_no_root.

(** P_Newton *)
Print Assumptions C109_tangent.
Print Assumptions C109_newton.
Print Assumptions C109_newton_wrapping.

(** P_FloatSink *)
Print Assumptions C110_sum.
Print Assumptions C110_operators.
Print Assumptions C110_macros.
Print Assumptions C110_product.
Print Assumptions C110_multiply.
Print Assumptions C110_sparse_multiply.

(** P_RealRoots *)
Print Assumptions C111_sign.
Print Assumptions C111_enclosure.
Print Assumptions C111_bracket.
Print Assumptions C111_lowest.

(** P_Taylor *)
Print Assumptions C112_expansion.
Print Assumptions C112_slope.
Print Assumptions C112_int.
Print Assumptions C112_int_wrapping.

(** P_Differences *)
Print Assumptions C113_differences.
Print Assumptions C113_int.
Print Assumptions C113_int_wrapping.

(** P_Derivs *)
Print Assumptions C114_coefficients.
Print Assumptions C114_int.
Print Assumptions C114_int_wrapping.

