* **Closed under the global context** (107): `c05_field`, `c05_int_power`, `c05_zero_power`, `c05_div_zero`, `c05_floordiv_mod`, `c07_float_root_refuted`, `c08_sum_order`, `c08_prod_order`, `c08_sort`, `c09_nested_sum_refuted`, `c09_nested_prod_refuted`, `c09_flat_sum`, `c10_div_self`, `c10_sub_self`, `c10_sub_symbol`, `c12_not_implemented`, `c15_not_expandable`, `c16_compositions`, `c16_once`, `c17_multinomial`, `c18_closed`, `c20_asin_sin_refuted`, `c21_raises`, `c23_evenness_refuted`, `c37_rename`, `c39_agree`, `c40_eq_is_identity`, `c40_eq_strict`, `c48_repr_log_raises`, `c48_sum_of_logs_refuted`, `c48_sorting_logs_raises`, `c50_fuel_irrelevant`, `c50_deterministic`, `c51_no_new_symbols`, `c51_library`, `c51_subs`, `c52_strict_is_plain`, `queries_as_built`, `c57_one_power_raises`, `c58_sectan`, `c58_simplify_raises_refuted`, `c59_never_longer`, `c30_division`, `c31_rid_ending_zeros`, `c32_invert`, `c32_other_sizes`, `c33_crash_refuted`, `c43_alternatives`, `c26_exact`, `c26_dropped`, `c26_lossless`, `c26_monitored`, `c26_lost_summand_refuted`, `c35_solved`, `c35_failed`, `c35_exclusive`, `c35_leaves`, `c35_unfinished_leaves`, `c35_all_done`, `c35_both_refuted`, `c61_reachable`, `c61_backwards`, `c62_raises_refuted`, `c62_infinite_refuted`, `c62_square_refuted`, `c63_best_nesting`, `c63_best_nesting_infinite`, `c63_breadth_first`, `c64_depth_first`, `c64_choice`, `c64_loop`, `c49_balanced`, `c49_plain_names`, `c65_nesting`, `c65_call`, `c65_infinity_refuted`, `c67_no_power_of_power`, `c67_integrate`, `c68_scope`, `c68_definite`, `c69_evaluate`, `c71_expand_incomplete_refuted`, `c81_immutable`, `c81_flatten_refuted`, `c81_skip_refuted`, `c81_log_refuted`, `c82_replies`, `c82_history_free`, `c82_symbols`, `c82_nesting`, `c82_stale_refuted`, `c83_symbols`, `c83_any_text`, `c84_not_number`, `c84_rat_zero`, `c85_value_error_refuted`, `c86_result`, `c86_symbols`, `c86_subs_ignored`, `c86_reciprocal_refuted`, `c89_divisor_refuted`, `c94_one`, `c94_error`, `c94_answer`, `c98_variable`, `c98_trig`, `c98_inverse_trig`.
* **`ClassicalDedekindReals.sig_forall_dec`, `FunctionalExtensionality.functional_extensionality_dep`** (11): `c17_theorem`, `c66_add`, `c66_mul`, `c66_sub`, `c66_neg`, `c66_abs`, `c66_pow`, `c66_pow_infinite`, `c84_compare`, `c84_sign`, `c84_rat`.
* **`ClassicalDedekindReals.sig_forall_dec`, `ClassicalDedekindReals.sig_not_dec`, `Classical_Prop.classic`, `FunctionalExtensionality.functional_extensionality_dep`** (166): `c01_sum`, `c01_add`, `c01_sub`, `c01_neg`, `c01_sum_plain`, `c01_ops_plain`, `c02_prod`, `c02_mul`, `c02_div`, `c02_prod_plain`, `c02_ops_plain`, `c03_power`, `c03_pow`, `c03_pow_plain`, `c03_int_power`, `c04_collapse_wrong_sign`, `c04_even_root_is_abs`, `c04_split_undefined`, `c05_lowest_terms`, `c05_reciprocal`, `c06_numeric_power`, `c06_rpow_meaning`, `c07_negative_base`, `c07_sign`, `c11_diff`, `c13_log_base_refuted`, `c13_log_base_differs`, `c13_abs_refuted`, `c14_subs`, `c15_expand`, `c18_total`, `c18_table`, `c19_trig`, `c20_range`, `c20_cot`, `c20_cot_refuted`, `c21_values`, `c22_log`, `c23_abs`, `c23_abs_plain`, `c37_value`, `c38_replace_equal`, `c38_replace_var`, `c39_independent`, `c39_diff_zero`, `c40_equivalence`, `c40_coincidence_refuted`, `c41_repr_collision_refuted`, `c45_factor`, `c42_product_to_sum_unit`, `c42_two_factors`, `c44_expand_logs`, `c44_base_refuted`, `c46_one_fraction`, `c53_simplify`, `c53_trig_simplify`, `c53_pythagorean`, `c54_eq`, `c54_eq_up_to_sum`, `c55_pairing_refuted`, `c56_value_refuted`, `c56_term_used_twice_refuted`, `c57_dropped_factor_refuted`, `c24_table`, `c25_pull_constant`, `c25_additivity`, `c27_linear`, `c27_polynomial`, `c27_generic`, `c27_inverse_trig`, `c28_trig`, `c28_wrong_sign_refuted`, `c30_transform`, `c30_total`, `c31_to_const_polynomial`, `c31_polynomial_to_expr`, `c31_lost_multiplier_refuted`, `c33_total`, `c33_proportional`, `c33_partial_fractions`, `c34_complete_square`, `c34_square_refuted`, `c43_reciprocate`, `c43_rewrite_trig`, `c43_rewrite_pythagorean`, `c29_dropped_child_refuted`, `c29_check`, `c29_sum`, `c29_cyclic`, `c29_cyclic_two`, `c29_tree`, `c36_go_backwards`, `c47_definite`, `c47_pole_refuted`, `c60_integrate`, `c60_certified`, `c60_abs_refuted`, `c69_value`, `c70_diff`, `c70_diff_laurent`, `c70_diff_rational`, `c71_expand`, `c72_integrate`, `c73_subs`, `c74_definite`, `c74_number`, `c75_reads`, `c75_injective`, `c75_polynomials`, `c75_exponent_refuted`, `c75_argument_refuted`, `c76_latex_reads`, `c76_injective`, `c76_agrees_with_repr`, `c76_polynomials`, `c76_name_refuted`, `c77_computes`, `c77_equality`, `c77_positive`, `c77_unexpanded_refuted`, `c77_ring`, `c77_powers`, `c77_diff_rules`, `c77_mixed`, `c77_fundamental`, `c77_definite`, `c80_computes`, `c80_equality`, `c80_laws`, `c80_division`, `c80_powers`, `c81_finite`, `c81_values`, `c81_operands`, `c82_expand`, `c84_pi_refuted`, `c85_diff`, `c86_value`, `c86_total`, `c86_type_error`, `c86_log_base_refuted`, `c87_integrate`, `c87_laurent`, `c88_computes`, `c88_diff`, `c88_trig`, `c89_factor`, `c90_simplify`, `c90_integrate`, `c90_diff_back`, `c91_coefficients`, `c91_product`, `c91_power`, `c92_text`, `c92_latex`, `c92_same_text`, `c92_same_latex`, `c93_definite`, `c94_polynomial`, `c95_definite`, `c96_simplify`, `c96_integrate`, `c97_diff`, `c97_diff_back`, `c97_definite`, `c98_leftover_refuted`.
