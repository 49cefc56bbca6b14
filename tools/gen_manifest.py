import json,re,glob
names=set()
for f in glob.glob('/verif/rocq/theories/*.v'):
    names|=set(re.findall(r'^(?:Theorem|Lemma|Corollary)\s+([A-Za-z0-9_\']+)',open(f).read(),re.M))
M=[]
def m(prop,status,theorems,note=""):
    t=theorems.split()
    for x in t: assert x in names,(prop,x)
    M.append(dict(property=prop,status=status,theorems=t,note=note))
mon="On completed monitored runs (see DESIGN.md section 3), which are shown to coincide with the plain code's run."
m("C01","proved","c01_sum c01_add c01_sub c01_neg c01_sum_plain c01_ops_plain","Assumes the float root test is exact (fpow_exact; shown for the exact oracle, refuted for binary64 in C07).")
m("C02","proved","c02_prod c02_mul c02_div c02_prod_plain c02_ops_plain","As C01.")
m("C03","proved","c03_power c03_pow c03_pow_plain c03_int_power","As C01; domain pdom in Sem.v.")
m("C04","proved","c04_collapse_wrong_sign c04_even_root_is_abs c04_split_undefined","The English claim describes a violation; the theorems prove the violation on the model.")
m("C05","proved","c05_field c05_lowest_terms c05_int_power c05_zero_power c05_div_zero c05_floordiv_mod c05_reciprocal")
m("C06","proved","c06_numeric_power c06_rpow_meaning","Assumes fpow_exact.")
m("C07","proved","c07_negative_base c07_sign c07_float_root_refuted","Violations proved on the model.")
m("C08","proved","c08_sum_order c08_prod_order c08_sort")
m("C09","proved","c09_nested_sum_refuted c09_nested_prod_refuted c09_flat_sum","Documented promise refuted by concrete constructions; flatness proved for unmerged terms.")
m("C10","proved","c10_div_self c10_sub_self c10_sub_symbol")
m("C11","proved","c11_diff",mon)
m("C12","proved","c12_not_implemented")
m("C13","proved","c13_log_base_refuted c13_log_base_differs c13_abs_refuted")
m("C14","proved","c14_subs",mon)
m("C15","proved","c15_expand c15_not_expandable",mon)
m("C16","proved","c16_compositions c16_once")
m("C17","proved","c17_multinomial c17_theorem")
m("C18","proved","c18_total c18_table c18_closed c19_trig","c18_total is about the plain code with the exact power oracle: it always returns, a trig-free expression of the exact value. c19_trig is about monitored runs.")
m("C19","proved","c19_trig",mon)
m("C20","proved","c20_asin_sin_refuted c20_range c20_cot c20_cot_refuted")
m("C21","proved","c21_raises c21_values")
m("C22","proved","c22_log",mon)
m("C23","proved","c23_abs c23_abs_plain c23_evenness_refuted")
m("C37","proved","c37_rename c37_value")
m("C38","proved","c38_replace_equal c38_replace_var",mon)
m("C39","proved","c39_agree c39_independent c39_diff_zero",mon)
m("C40","proved","c40_eq_is_identity c40_equivalence c40_eq_strict c40_coincidence_refuted")
m("C41","proved","c41_repr_collision_refuted")
m("C45","proved","c45_factor",mon)
m("C48","proved","c48_repr_log_raises c48_sum_of_logs_refuted c48_sorting_logs_raises")
m("C50","proved","c50_fuel_irrelevant c50_deterministic","Caches are not modelled as state: the model recomputes; determinism of the recomputation is what is proved.")
m("C51","proved","c51_no_new_symbols c51_library c51_subs","Plain code, all operations.")
m("C52","proved","c52_strict_is_plain")
m("C42","proved","c42_product_to_sum_unit c42_two_factors",mon)
m("C44","proved","c44_expand_logs c44_base_refuted",mon)
m("C46","proved","c46_one_fraction",mon)
m("C53","proved","c53_simplify c53_trig_simplify c53_pythagorean queries_as_built",mon)
m("C54","proved","c54_eq c54_eq_up_to_sum",mon)
m("C55","proved","c55_pairing_refuted")
m("C56","proved","c56_value_refuted c56_term_used_twice_refuted")
m("C57","proved","c57_dropped_factor_refuted c57_one_power_raises")
m("C58","proved","c58_sectan c58_simplify_raises_refuted")
m("C59","proved","c59_never_longer")
m("C24","proved","c24_table",mon)
m("C25","proved","c25_pull_constant c25_additivity",mon)
m("C27","proved","c27_linear c27_polynomial c27_generic c27_inverse_trig",mon+" The oracles can be computed for every box of open rational intervals (ivdom_right, ivrng_ok).")
m("C28","proved","c28_trig c28_wrong_sign_refuted",mon)
m("C30","proved","c30_division c30_transform c30_total","c30_division: plain code, all rational lists. c30_transform: whole transform. "+mon+" c30_total: plain code, no monitoring, polynomial program over linear denominator. Instance: c30_ex.")
m("C31","proved","c31_to_const_polynomial c31_polynomial_to_expr c31_rid_ending_zeros c31_lost_multiplier_refuted",mon)
m("C32","proved","c32_invert c32_other_sizes","Plain code, all rational matrices.")
m("C33","proved","c33_total c33_proportional c33_partial_fractions c33_crash_refuted","c33_total: plain code, no monitoring, for every (p v + q)/((a1 v + b1)(a2 v + b2)) in the shape the constructors give; c33_partial_fractions: every completed monitored run on anything. Instance: c33_ex.")
m("C34","proved","c34_complete_square c34_square_refuted",mon)
m("C43","proved","c43_reciprocate c43_rewrite_trig c43_rewrite_pythagorean c43_alternatives",mon)
m("C26","proved","c26_exact c26_dropped c26_lossless c26_monitored c26_lost_summand_refuted c29_dropped_child_refuted","Plain code, all trees; the loss itself is proved on the model.")
m("C29","proved","c29_check c29_sum c29_cyclic c29_cyclic_two c29_tree c29_dropped_child_refuted",mon)
m("C35","proved","c35_solved c35_failed c35_exclusive c35_leaves c35_unfinished_leaves c35_all_done c35_both_refuted","Plain code, all trees.")
m("C36","proved","c36_go_backwards",mon)
m("C47","proved","c47_definite c47_pole_refuted",mon+" The integral is Coquelicot's is_RInt.")
m("C60","proved","c60_integrate c60_certified c60_abs_refuted",mon+" c60_certified has no hypothesis on oracles.")
m("C61","proved","c61_reachable c61_backwards","Plain code.")
m("C62","proved","c62_raises_refuted c62_infinite_refuted c62_square_refuted","Violations proved on the model.")
m("C63","proved","c63_best_nesting c63_best_nesting_infinite c63_breadth_first","Plain code, all trees.")
m("C64","proved","c64_depth_first c64_choice c64_loop","Plain code, all histories.")
m("C49","proved","c49_balanced c49_plain_names","Plain code, all runs of the printing methods that return; TeX tokens read by a stack machine.")
m("C65","proved","c65_nesting c65_call c65_infinity_refuted","All expressions without empty sums/products (none can be built).")
m("C66","proved","c66_add c66_mul c66_sub c66_neg c66_abs c66_pow c66_pow_infinite","Plain code; Coquelicot's Rbar.")
m("C67","proved","c67_no_power_of_power c67_integrate","c67_no_power_of_power: plain code, all operations. c67_integrate: "+mon)
m("C68","proved","c68_scope c68_definite",mon)
m("C69","proved","c69_evaluate c69_value","Plain code, any float oracle; total.")
m("C70","proved","c70_diff c70_diff_laurent c70_diff_rational","Plain code; total: the run returns.")
m("C71","proved","c71_expand c71_expand_incomplete_refuted","Plain code; total. The refutation shows that the condition on bases is needed.")
m("C72","proved","c72_integrate","Plain code; total: the run returns an antiderivative, for every time limit. The recursion allowance d must reach the number of factors per term.")
m("C73","proved","c73_subs","Plain code; total.")
m("C74","proved","c74_definite c74_number","Plain code; total; value as Riemann integral (Coquelicot is_RInt).")
m("C75","proved","c75_reads c75_injective c75_polynomials c75_exponent_refuted c75_argument_refuted","The reader is defined in Read.v independently of the printer. The shape is the predicate canon of Canon.v (decidable checker canonb, samples in c75_example); two printer bugs outside the shape are proved as refutations.")
m("C76","proved","c76_latex_reads c76_injective c76_agrees_with_repr c76_polynomials c76_name_refuted","The reader is defined in ReadTex.v independently of the printer. Samples (with texts) in c76_example.")
m("C77","proved","c77_computes","Programs are the type pexp, their meaning pval (Derive and RInt of Coquelicot); computes quantifies over the fuel of the model, the search strategy, its rounds and its names. Non-trivial instance: c77_example.")
m("C78","proved","c77_equality c77_positive c77_unexpanded_refuted","By unique normal forms (NForm.v, NUniq.v).")
m("C79","proved","c77_ring c77_powers c77_diff_rules c77_mixed c77_fundamental c77_definite","")
m("C80","proved","c80_computes c80_equality c80_laws c80_division c80_powers","Programs are lexp, meaning lval (Rpower, Derive). Instances: c80_example, c80_powers_example.")
m("C81","proved","c81_immutable c81_finite c81_values c81_operands c81_flatten_refuted c81_skip_refuted c81_log_refuted","Store of objects (Objects.v); histories are lists of steps; hypotheses lawful/tame. Instance: c81_example. The three _refuted theorems show each hypothesis is needed, with expressions the constructors really build.")
m("C82","proved","c82_replies c82_history_free c82_symbols c82_nesting c82_expand c82_stale_refuted","Instances: c81_example, c82_expand_ex.")
m("C83","proved","c83_symbols c83_any_text","Instance: c83_ex.")
m("C84","proved","c84_compare c84_sign c84_not_number c84_rat c84_rat_zero c84_pi_refuted","Instance: c84_ex.")
m("C85","proved","c85_diff c85_value_error_refuted","Instance: c85_ex.")
m("C86","proved","c86_value c86_total c86_result c86_symbols c86_subs_ignored c86_reciprocal_refuted c86_type_error c86_log_base_refuted","Floats are an arbitrary arithmetic (record farith); exactness is a hypothesis of c86_value, met by the real numbers (Reals_exact). Instances: c86_ex, c86_ex_value.")
m("C87","proved","c87_integrate c87_laurent","Plain code, no monitoring: the run returns; the recursion allowance d must reach the number of factors per term. Instances: c87_ex, c87_laurent_ex.")
m("C88","proved","c88_computes c88_diff c88_trig","Plain code, no monitoring. Instances: c88_ex, c88_trig_ex.")
m("C89","proved","c89_factor c89_divisor_refuted","Plain code, no monitoring. Instance: c89_example. c89_divisor_refuted: the order-dependence of the common divisor.")
m("C90","proved","c90_simplify c90_integrate c90_diff_back","Plain code, no monitoring. Instance: c90_ex.")
m("C91","proved","c91_coefficients c91_product c91_power","Plain code, no monitoring. Instance: c91_ex.")
m("C92","proved","c92_text c92_latex c92_same_text c92_same_latex","Plain code, no monitoring. Instance: c92_ex.")
m("C93","proved","c93_definite","Plain code, no monitoring. Instance: c93_ex.")
m("C94","proved","c94_one c94_error c94_answer c94_polynomial","Instance: c94_ex. c94_polynomial is about the plain code.")
m("C95","proved","c95_definite","Plain code, no monitoring. Instance: c95_ex.")
m("C96","proved","c96_simplify c96_integrate","Plain code, no monitoring; the supply of fresh names avoids v. Instance: c96_ex.")
m("C97","proved","c97_diff c97_diff_back c97_definite","Plain code, no monitoring; the supply of fresh names avoids v. Instance: c97_ex.")
m("C98","proved","c98_variable c98_trig c98_inverse_trig c98_leftover_refuted","Plain code throughout; c98_variable covers every integrand without a product LinearUSub would rescale; the refutation runs integrate on the plain code. Instances: c98_ex c98_ex2.")
#MORE
json.dump({"claims":M},open('/verif/MANIFEST.json','w'),indent=1)
print(len(M))
