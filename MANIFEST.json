{
 "claims": [
  {
   "property": "C01",
   "status": "proved",
   "theorems": [
    "c01_sum",
    "c01_add",
    "c01_sub",
    "c01_neg",
    "c01_sum_plain",
    "c01_ops_plain"
   ],
   "note": "Assumes the float root test is exact (fpow_exact; shown for the exact oracle, refuted for binary64 in C07)."
  },
  {
   "property": "C02",
   "status": "proved",
   "theorems": [
    "c02_prod",
    "c02_mul",
    "c02_div",
    "c02_prod_plain",
    "c02_ops_plain"
   ],
   "note": "As C01."
  },
  {
   "property": "C03",
   "status": "proved",
   "theorems": [
    "c03_power",
    "c03_pow",
    "c03_pow_plain",
    "c03_int_power"
   ],
   "note": "As C01; domain pdom in Sem.v."
  },
  {
   "property": "C04",
   "status": "proved",
   "theorems": [
    "c04_collapse_wrong_sign",
    "c04_even_root_is_abs",
    "c04_split_undefined"
   ],
   "note": "The English claim describes a violation; the theorems prove the violation on the model."
  },
  {
   "property": "C05",
   "status": "proved",
   "theorems": [
    "c05_field",
    "c05_lowest_terms",
    "c05_int_power",
    "c05_zero_power",
    "c05_div_zero",
    "c05_floordiv_mod",
    "c05_reciprocal"
   ],
   "note": ""
  },
  {
   "property": "C06",
   "status": "proved",
   "theorems": [
    "c06_numeric_power",
    "c06_rpow_meaning"
   ],
   "note": "Assumes fpow_exact."
  },
  {
   "property": "C07",
   "status": "proved",
   "theorems": [
    "c07_negative_base",
    "c07_sign",
    "c07_float_root_refuted"
   ],
   "note": "Violations proved on the model."
  },
  {
   "property": "C08",
   "status": "proved",
   "theorems": [
    "c08_sum_order",
    "c08_prod_order",
    "c08_sort"
   ],
   "note": ""
  },
  {
   "property": "C09",
   "status": "proved",
   "theorems": [
    "c09_nested_sum_refuted",
    "c09_nested_prod_refuted",
    "c09_flat_sum"
   ],
   "note": "Documented promise refuted by concrete constructions; flatness proved for unmerged terms."
  },
  {
   "property": "C10",
   "status": "proved",
   "theorems": [
    "c10_div_self",
    "c10_sub_self",
    "c10_sub_symbol"
   ],
   "note": ""
  },
  {
   "property": "C11",
   "status": "proved",
   "theorems": [
    "c11_diff"
   ],
   "note": "On completed monitored runs (see DESIGN.md section 3), which are shown to coincide with the plain code's run."
  },
  {
   "property": "C12",
   "status": "proved",
   "theorems": [
    "c12_not_implemented"
   ],
   "note": ""
  },
  {
   "property": "C13",
   "status": "proved",
   "theorems": [
    "c13_log_base_refuted",
    "c13_log_base_differs",
    "c13_abs_refuted"
   ],
   "note": ""
  },
  {
   "property": "C14",
   "status": "proved",
   "theorems": [
    "c14_subs"
   ],
   "note": "On completed monitored runs (see DESIGN.md section 3), which are shown to coincide with the plain code's run."
  },
  {
   "property": "C15",
   "status": "proved",
   "theorems": [
    "c15_expand",
    "c15_not_expandable"
   ],
   "note": "On completed monitored runs (see DESIGN.md section 3), which are shown to coincide with the plain code's run."
  },
  {
   "property": "C16",
   "status": "proved",
   "theorems": [
    "c16_compositions",
    "c16_once"
   ],
   "note": ""
  },
  {
   "property": "C17",
   "status": "proved",
   "theorems": [
    "c17_multinomial",
    "c17_theorem"
   ],
   "note": ""
  },
  {
   "property": "C18",
   "status": "proved",
   "theorems": [
    "c18_total",
    "c18_table",
    "c18_closed",
    "c19_trig"
   ],
   "note": "c18_total is about the plain code with the exact power oracle: it always returns, a trig-free expression of the exact value. c19_trig is about monitored runs."
  },
  {
   "property": "C19",
   "status": "proved",
   "theorems": [
    "c19_trig"
   ],
   "note": "On completed monitored runs (see DESIGN.md section 3), which are shown to coincide with the plain code's run."
  },
  {
   "property": "C20",
   "status": "proved",
   "theorems": [
    "c20_asin_sin_refuted",
    "c20_range",
    "c20_cot",
    "c20_cot_refuted"
   ],
   "note": ""
  },
  {
   "property": "C21",
   "status": "proved",
   "theorems": [
    "c21_raises",
    "c21_values"
   ],
   "note": ""
  },
  {
   "property": "C22",
   "status": "proved",
   "theorems": [
    "c22_log"
   ],
   "note": "On completed monitored runs (see DESIGN.md section 3), which are shown to coincide with the plain code's run."
  },
  {
   "property": "C23",
   "status": "proved",
   "theorems": [
    "c23_abs",
    "c23_abs_plain",
    "c23_evenness_refuted"
   ],
   "note": ""
  },
  {
   "property": "C37",
   "status": "proved",
   "theorems": [
    "c37_rename",
    "c37_value"
   ],
   "note": ""
  },
  {
   "property": "C38",
   "status": "proved",
   "theorems": [
    "c38_replace_equal",
    "c38_replace_var"
   ],
   "note": "On completed monitored runs (see DESIGN.md section 3), which are shown to coincide with the plain code's run."
  },
  {
   "property": "C39",
   "status": "proved",
   "theorems": [
    "c39_agree",
    "c39_independent",
    "c39_diff_zero"
   ],
   "note": "On completed monitored runs (see DESIGN.md section 3), which are shown to coincide with the plain code's run."
  },
  {
   "property": "C40",
   "status": "proved",
   "theorems": [
    "c40_eq_is_identity",
    "c40_equivalence",
    "c40_eq_strict",
    "c40_coincidence_refuted"
   ],
   "note": ""
  },
  {
   "property": "C41",
   "status": "proved",
   "theorems": [
    "c41_repr_collision_refuted"
   ],
   "note": ""
  },
  {
   "property": "C45",
   "status": "proved",
   "theorems": [
    "c45_factor"
   ],
   "note": "On completed monitored runs (see DESIGN.md section 3), which are shown to coincide with the plain code's run."
  },
  {
   "property": "C48",
   "status": "proved",
   "theorems": [
    "c48_repr_log_raises",
    "c48_sum_of_logs_refuted",
    "c48_sorting_logs_raises"
   ],
   "note": ""
  },
  {
   "property": "C50",
   "status": "proved",
   "theorems": [
    "c50_fuel_irrelevant",
    "c50_deterministic"
   ],
   "note": "Caches are not modelled as state: the model recomputes; determinism of the recomputation is what is proved."
  },
  {
   "property": "C51",
   "status": "proved",
   "theorems": [
    "c51_no_new_symbols",
    "c51_library",
    "c51_subs"
   ],
   "note": "Plain code, all operations."
  },
  {
   "property": "C52",
   "status": "proved",
   "theorems": [
    "c52_strict_is_plain"
   ],
   "note": ""
  },
  {
   "property": "C42",
   "status": "proved",
   "theorems": [
    "c42_product_to_sum_unit",
    "c42_two_factors"
   ],
   "note": "On completed monitored runs (see DESIGN.md section 3), which are shown to coincide with the plain code's run."
  },
  {
   "property": "C44",
   "status": "proved",
   "theorems": [
    "c44_expand_logs",
    "c44_base_refuted"
   ],
   "note": "On completed monitored runs (see DESIGN.md section 3), which are shown to coincide with the plain code's run."
  },
  {
   "property": "C46",
   "status": "proved",
   "theorems": [
    "c46_one_fraction"
   ],
   "note": "On completed monitored runs (see DESIGN.md section 3), which are shown to coincide with the plain code's run."
  },
  {
   "property": "C53",
   "status": "proved",
   "theorems": [
    "c53_simplify",
    "c53_trig_simplify",
    "c53_pythagorean",
    "queries_as_built"
   ],
   "note": "On completed monitored runs (see DESIGN.md section 3), which are shown to coincide with the plain code's run."
  },
  {
   "property": "C54",
   "status": "proved",
   "theorems": [
    "c54_eq",
    "c54_eq_up_to_sum"
   ],
   "note": "On completed monitored runs (see DESIGN.md section 3), which are shown to coincide with the plain code's run."
  },
  {
   "property": "C55",
   "status": "proved",
   "theorems": [
    "c55_pairing_refuted"
   ],
   "note": ""
  },
  {
   "property": "C56",
   "status": "proved",
   "theorems": [
    "c56_value_refuted",
    "c56_term_used_twice_refuted"
   ],
   "note": ""
  },
  {
   "property": "C57",
   "status": "proved",
   "theorems": [
    "c57_dropped_factor_refuted",
    "c57_one_power_raises"
   ],
   "note": ""
  },
  {
   "property": "C58",
   "status": "proved",
   "theorems": [
    "c58_sectan",
    "c58_simplify_raises_refuted"
   ],
   "note": ""
  },
  {
   "property": "C59",
   "status": "proved",
   "theorems": [
    "c59_never_longer"
   ],
   "note": ""
  },
  {
   "property": "C24",
   "status": "proved",
   "theorems": [
    "c24_table"
   ],
   "note": "On completed monitored runs (see DESIGN.md section 3), which are shown to coincide with the plain code's run."
  },
  {
   "property": "C25",
   "status": "proved",
   "theorems": [
    "c25_pull_constant",
    "c25_additivity"
   ],
   "note": "On completed monitored runs (see DESIGN.md section 3), which are shown to coincide with the plain code's run."
  },
  {
   "property": "C27",
   "status": "proved",
   "theorems": [
    "c27_linear",
    "c27_polynomial",
    "c27_generic",
    "c27_inverse_trig"
   ],
   "note": "On completed monitored runs (see DESIGN.md section 3), which are shown to coincide with the plain code's run. The oracles can be computed for every box of open rational intervals (ivdom_right, ivrng_ok)."
  },
  {
   "property": "C28",
   "status": "proved",
   "theorems": [
    "c28_trig",
    "c28_wrong_sign_refuted"
   ],
   "note": "On completed monitored runs (see DESIGN.md section 3), which are shown to coincide with the plain code's run."
  },
  {
   "property": "C30",
   "status": "proved",
   "theorems": [
    "c30_division",
    "c30_transform",
    "c30_total"
   ],
   "note": "c30_division: plain code, all rational lists. c30_transform: whole transform. On completed monitored runs (see DESIGN.md section 3), which are shown to coincide with the plain code's run. c30_total: plain code, no monitoring, polynomial program over linear denominator. Instance: c30_ex."
  },
  {
   "property": "C31",
   "status": "proved",
   "theorems": [
    "c31_to_const_polynomial",
    "c31_polynomial_to_expr",
    "c31_rid_ending_zeros",
    "c31_lost_multiplier_refuted"
   ],
   "note": "On completed monitored runs (see DESIGN.md section 3), which are shown to coincide with the plain code's run."
  },
  {
   "property": "C32",
   "status": "proved",
   "theorems": [
    "c32_invert",
    "c32_other_sizes"
   ],
   "note": "Plain code, all rational matrices."
  },
  {
   "property": "C33",
   "status": "proved",
   "theorems": [
    "c33_total",
    "c33_proportional",
    "c33_partial_fractions",
    "c33_crash_refuted"
   ],
   "note": "c33_total: plain code, no monitoring, for every (p v + q)/((a1 v + b1)(a2 v + b2)) in the shape the constructors give; c33_partial_fractions: every completed monitored run on anything. Instance: c33_ex."
  },
  {
   "property": "C34",
   "status": "proved",
   "theorems": [
    "c34_complete_square",
    "c34_square_refuted"
   ],
   "note": "On completed monitored runs (see DESIGN.md section 3), which are shown to coincide with the plain code's run."
  },
  {
   "property": "C43",
   "status": "proved",
   "theorems": [
    "c43_reciprocate",
    "c43_rewrite_trig",
    "c43_rewrite_pythagorean",
    "c43_alternatives"
   ],
   "note": "On completed monitored runs (see DESIGN.md section 3), which are shown to coincide with the plain code's run."
  },
  {
   "property": "C26",
   "status": "proved",
   "theorems": [
    "c26_exact",
    "c26_dropped",
    "c26_lossless",
    "c26_monitored",
    "c26_lost_summand_refuted",
    "c29_dropped_child_refuted"
   ],
   "note": "Plain code, all trees; the loss itself is proved on the model."
  },
  {
   "property": "C29",
   "status": "proved",
   "theorems": [
    "c29_check",
    "c29_sum",
    "c29_cyclic",
    "c29_cyclic_two",
    "c29_tree",
    "c29_dropped_child_refuted"
   ],
   "note": "On completed monitored runs (see DESIGN.md section 3), which are shown to coincide with the plain code's run."
  },
  {
   "property": "C35",
   "status": "proved",
   "theorems": [
    "c35_solved",
    "c35_failed",
    "c35_exclusive",
    "c35_leaves",
    "c35_unfinished_leaves",
    "c35_all_done",
    "c35_both_refuted"
   ],
   "note": "Plain code, all trees."
  },
  {
   "property": "C36",
   "status": "proved",
   "theorems": [
    "c36_go_backwards"
   ],
   "note": "On completed monitored runs (see DESIGN.md section 3), which are shown to coincide with the plain code's run."
  },
  {
   "property": "C47",
   "status": "proved",
   "theorems": [
    "c47_definite",
    "c47_pole_refuted"
   ],
   "note": "On completed monitored runs (see DESIGN.md section 3), which are shown to coincide with the plain code's run. The integral is Coquelicot's is_RInt."
  },
  {
   "property": "C60",
   "status": "proved",
   "theorems": [
    "c60_integrate",
    "c60_certified",
    "c60_abs_refuted"
   ],
   "note": "On completed monitored runs (see DESIGN.md section 3), which are shown to coincide with the plain code's run. c60_certified has no hypothesis on oracles."
  },
  {
   "property": "C61",
   "status": "proved",
   "theorems": [
    "c61_reachable",
    "c61_backwards"
   ],
   "note": "Plain code."
  },
  {
   "property": "C62",
   "status": "proved",
   "theorems": [
    "c62_raises_refuted",
    "c62_infinite_refuted",
    "c62_square_refuted"
   ],
   "note": "Violations proved on the model."
  },
  {
   "property": "C63",
   "status": "proved",
   "theorems": [
    "c63_best_nesting",
    "c63_best_nesting_infinite",
    "c63_breadth_first"
   ],
   "note": "Plain code, all trees."
  },
  {
   "property": "C64",
   "status": "proved",
   "theorems": [
    "c64_depth_first",
    "c64_choice",
    "c64_loop"
   ],
   "note": "Plain code, all histories."
  },
  {
   "property": "C49",
   "status": "proved",
   "theorems": [
    "c49_balanced",
    "c49_plain_names"
   ],
   "note": "Plain code, all runs of the printing methods that return; TeX tokens read by a stack machine."
  },
  {
   "property": "C65",
   "status": "proved",
   "theorems": [
    "c65_nesting",
    "c65_call",
    "c65_infinity_refuted"
   ],
   "note": "All expressions without empty sums/products (none can be built)."
  },
  {
   "property": "C66",
   "status": "proved",
   "theorems": [
    "c66_add",
    "c66_mul",
    "c66_sub",
    "c66_neg",
    "c66_abs",
    "c66_pow",
    "c66_pow_infinite"
   ],
   "note": "Plain code; Coquelicot's Rbar."
  },
  {
   "property": "C67",
   "status": "proved",
   "theorems": [
    "c67_no_power_of_power",
    "c67_integrate"
   ],
   "note": "c67_no_power_of_power: plain code, all operations. c67_integrate: On completed monitored runs (see DESIGN.md section 3), which are shown to coincide with the plain code's run."
  },
  {
   "property": "C68",
   "status": "proved",
   "theorems": [
    "c68_scope",
    "c68_definite"
   ],
   "note": "On completed monitored runs (see DESIGN.md section 3), which are shown to coincide with the plain code's run."
  },
  {
   "property": "C69",
   "status": "proved",
   "theorems": [
    "c69_evaluate",
    "c69_value"
   ],
   "note": "Plain code, any float oracle; total."
  },
  {
   "property": "C70",
   "status": "proved",
   "theorems": [
    "c70_diff",
    "c70_diff_laurent",
    "c70_diff_rational"
   ],
   "note": "Plain code; total: the run returns."
  },
  {
   "property": "C71",
   "status": "proved",
   "theorems": [
    "c71_expand",
    "c71_expand_incomplete_refuted"
   ],
   "note": "Plain code; total. The refutation shows that the condition on bases is needed."
  },
  {
   "property": "C72",
   "status": "proved",
   "theorems": [
    "c72_integrate"
   ],
   "note": "Plain code; total: the run returns an antiderivative, for every time limit. The recursion allowance d must reach the number of factors per term."
  },
  {
   "property": "C73",
   "status": "proved",
   "theorems": [
    "c73_subs"
   ],
   "note": "Plain code; total."
  },
  {
   "property": "C74",
   "status": "proved",
   "theorems": [
    "c74_definite",
    "c74_number"
   ],
   "note": "Plain code; total; value as Riemann integral (Coquelicot is_RInt)."
  },
  {
   "property": "C75",
   "status": "proved",
   "theorems": [
    "c75_reads",
    "c75_injective",
    "c75_polynomials",
    "c75_exponent_refuted",
    "c75_argument_refuted"
   ],
   "note": "The reader is defined in Read.v independently of the printer. The shape is the predicate canon of Canon.v (decidable checker canonb, samples in c75_example); two printer bugs outside the shape are proved as refutations."
  },
  {
   "property": "C76",
   "status": "proved",
   "theorems": [
    "c76_latex_reads",
    "c76_injective",
    "c76_agrees_with_repr",
    "c76_polynomials",
    "c76_name_refuted"
   ],
   "note": "The reader is defined in ReadTex.v independently of the printer. Samples (with texts) in c76_example."
  },
  {
   "property": "C77",
   "status": "proved",
   "theorems": [
    "c77_computes"
   ],
   "note": "Programs are the type pexp, their meaning pval (Derive and RInt of Coquelicot); computes quantifies over the fuel of the model, the search strategy, its rounds and its names. Non-trivial instance: c77_example."
  },
  {
   "property": "C78",
   "status": "proved",
   "theorems": [
    "c77_equality",
    "c77_positive",
    "c77_unexpanded_refuted"
   ],
   "note": "By unique normal forms (NForm.v, NUniq.v)."
  },
  {
   "property": "C79",
   "status": "proved",
   "theorems": [
    "c77_ring",
    "c77_powers",
    "c77_diff_rules",
    "c77_mixed",
    "c77_fundamental",
    "c77_definite"
   ],
   "note": ""
  },
  {
   "property": "C80",
   "status": "proved",
   "theorems": [
    "c80_computes",
    "c80_equality",
    "c80_laws",
    "c80_division",
    "c80_powers"
   ],
   "note": "Programs are lexp, meaning lval (Rpower, Derive). Instances: c80_example, c80_powers_example."
  },
  {
   "property": "C81",
   "status": "proved",
   "theorems": [
    "c81_immutable",
    "c81_finite",
    "c81_values",
    "c81_operands",
    "c81_flatten_refuted",
    "c81_skip_refuted",
    "c81_log_refuted"
   ],
   "note": "Store of objects (Objects.v); histories are lists of steps; hypotheses lawful/tame. Instance: c81_example. The three _refuted theorems show each hypothesis is needed, with expressions the constructors really build."
  },
  {
   "property": "C82",
   "status": "proved",
   "theorems": [
    "c82_replies",
    "c82_history_free",
    "c82_symbols",
    "c82_nesting",
    "c82_expand",
    "c82_stale_refuted"
   ],
   "note": "Instances: c81_example, c82_expand_ex."
  },
  {
   "property": "C83",
   "status": "proved",
   "theorems": [
    "c83_symbols",
    "c83_any_text"
   ],
   "note": "Instance: c83_ex."
  },
  {
   "property": "C84",
   "status": "proved",
   "theorems": [
    "c84_compare",
    "c84_sign",
    "c84_not_number",
    "c84_rat",
    "c84_rat_zero",
    "c84_pi_refuted"
   ],
   "note": "Instance: c84_ex."
  },
  {
   "property": "C85",
   "status": "proved",
   "theorems": [
    "c85_diff",
    "c85_value_error_refuted"
   ],
   "note": "Instance: c85_ex."
  },
  {
   "property": "C86",
   "status": "proved",
   "theorems": [
    "c86_value",
    "c86_total",
    "c86_result",
    "c86_symbols",
    "c86_subs_ignored",
    "c86_reciprocal_refuted",
    "c86_type_error",
    "c86_log_base_refuted"
   ],
   "note": "Floats are an arbitrary arithmetic (record farith); exactness is a hypothesis of c86_value, met by the real numbers (Reals_exact). Instances: c86_ex, c86_ex_value."
  },
  {
   "property": "C87",
   "status": "proved",
   "theorems": [
    "c87_integrate",
    "c87_laurent"
   ],
   "note": "Plain code, no monitoring: the run returns; the recursion allowance d must reach the number of factors per term. Instances: c87_ex, c87_laurent_ex."
  },
  {
   "property": "C88",
   "status": "proved",
   "theorems": [
    "c88_computes",
    "c88_diff",
    "c88_trig"
   ],
   "note": "Plain code, no monitoring. Instances: c88_ex, c88_trig_ex."
  },
  {
   "property": "C89",
   "status": "proved",
   "theorems": [
    "c89_factor",
    "c89_divisor_refuted"
   ],
   "note": "Plain code, no monitoring. Instance: c89_example. c89_divisor_refuted: the order-dependence of the common divisor."
  },
  {
   "property": "C90",
   "status": "proved",
   "theorems": [
    "c90_simplify",
    "c90_integrate",
    "c90_diff_back"
   ],
   "note": "Plain code, no monitoring. Instance: c90_ex."
  },
  {
   "property": "C91",
   "status": "proved",
   "theorems": [
    "c91_coefficients",
    "c91_product",
    "c91_power"
   ],
   "note": "Plain code, no monitoring. Instance: c91_ex."
  },
  {
   "property": "C92",
   "status": "proved",
   "theorems": [
    "c92_text",
    "c92_latex",
    "c92_same_text",
    "c92_same_latex"
   ],
   "note": "Plain code, no monitoring. Instance: c92_ex."
  },
  {
   "property": "C93",
   "status": "proved",
   "theorems": [
    "c93_definite"
   ],
   "note": "Plain code, no monitoring. Instance: c93_ex."
  },
  {
   "property": "C94",
   "status": "proved",
   "theorems": [
    "c94_one",
    "c94_error",
    "c94_answer",
    "c94_polynomial"
   ],
   "note": "Instance: c94_ex. c94_polynomial is about the plain code."
  },
  {
   "property": "C95",
   "status": "proved",
   "theorems": [
    "c95_definite"
   ],
   "note": "Plain code, no monitoring. Instance: c95_ex."
  },
  {
   "property": "C96",
   "status": "proved",
   "theorems": [
    "c96_simplify",
    "c96_integrate"
   ],
   "note": "Plain code, no monitoring; the supply of fresh names avoids v. Instance: c96_ex."
  },
  {
   "property": "C97",
   "status": "proved",
   "theorems": [
    "c97_diff",
    "c97_diff_back",
    "c97_definite"
   ],
   "note": "Plain code, no monitoring; the supply of fresh names avoids v. Instance: c97_ex."
  },
  {
   "property": "C98",
   "status": "proved",
   "theorems": [
    "c98_variable",
    "c98_trig",
    "c98_inverse_trig",
    "c98_leftover_refuted"
   ],
   "note": "Plain code throughout; c98_variable covers every integrand without a product LinearUSub would rescale; the refutation runs integrate on the plain code. Instances: c98_ex c98_ex2."
  }
 ]
}