# Formal model of laurgao/simpy in Rocq — design

(DESIGN.md is generated by `tools/gen_design.py` from `tools/design_head.md`, `properties.jsonl` and
`MANIFEST.json`.)

## 1. Approach

simpy is a small computer-algebra system: pure trees (`Expr`) built by *smart constructors*
(`Sum`, `Prod`, `Power`, `log`, trig, `Abs`) and algorithms that only build trees through them
(diff, subs, expand, factor, replace, simplify, integrate).  The model mirrors the functions branch by
branch as Gallina functions over one inductive type `expr` (`Expr.v`); the search tree of the integrator
is a heap of nodes (`Search.v`).

* **Exceptions** are values: `res A = Ok a | Raise exception | Stop reason` (`Base.v`).  `Stop` never
  corresponds to Python behaviour: it says the model gives no answer (`OutOfFuel`: recursion bound too
  small; `Unmodelled`: NaN; `Cycle`: the constructor of log would loop; `Coincidence`, `Domain`: see the
  monitor below).
* **Recursion**: the constructors are mutually recursive (Sum sorts by repr, repr of a product builds
  products and powers, ...), tied with explicit fuel: `build : cfg -> kern -> kern` is not recursive,
  `K c n = build^n bottom`.  Every theorem quantifies over all fuel and speaks about completed runs; C50
  says fuel never changes a completed result.
* **Specification**: independent of the model's helpers.  `Sem.v` gives the real value `ev rho e` of a tree
  and the predicate `wd rho e` "the tree is defined at rho" (no division by 0, no even root or logarithm of a
  negative number, tan/sec/... away from poles, asin/acos on [-1,1]).  Derivatives and integrals are
  Coquelicot's `is_derive` and `is_RInt`; extended reals are Coquelicot's `Rbar`; polynomials, matrices and
  compositions are functions on lists; tree properties are inductive predicates stated in the Props files.

### Plain code and monitored code

`PF c m` (and `K (faithful c) m`) is the code as it is.  Many of simpy's rewriting rules are only valid on
part of the domain (`(x^2)^(1/2)`, `log(a*b)`, `x/x`, ...), and its `==` compares pi and e by their binary64
values.  So "the value is preserved" is *false* for the plain code without a side condition; the
counterexamples are themselves theorems (names ending in `_refuted`, and C04, C07, C20, C48, C55-C58, C62).

The side condition is expressed by running the same code under a **monitor** (`GF dom c n`), which
stops (`Stop Domain`/`Stop Coincidence`) instead of going on when

1. a power, logarithm or trig function is about to be built that the oracle `dom` does not certify as
   defined at the point (or on the box) under consideration (`Funcs.guard`, `gk`, `F`);
2. a rational equal to the binary64 value of pi or e is compared with pi or e (`cfg.strict`);
3. a search step would lose information: a summand dropped by Additivity, a by-parts child dropped, a child
   added to an AND node, a substitution whose range the oracle `rng` does not certify, a cyclic by-parts
   division by a factor containing the variable, ... (each `strictg` in `Trans.v`, `Search.v`).

A soundness theorem then has the form: *if the monitored run completes with result r, then the plain run
completes with the same result r* (proved by monotonicity: `Mono.v`, `FMono.v`, `TransMono.v`,
`SearchMono.v`) *and r is right*.  The oracles are arbitrary functions with the stated correctness
hypothesis (`right_at`, `rng_ok`); `Interval.v` gives a computable oracle for every box of open rational
intervals and proves it right, so `c60_certified` and the examples have no oracle hypothesis left.  The
monitor only ever stops; it never changes a result (that is what the monotonicity theorems say), so it
can be read as the precise side condition "no step of this run leaves the domain".  Where a property holds of the
plain code outright it is stated so (C05, C08-C10, C16-C18, C26, C30, C32, C35, C39, C41, C49-C52, C61, C63-C68,
the `_plain` variants of C01-C03, ...).

Ghost state: `nd_only` (field of a node) is only read by the monitor.

## 2. Properties and theorems

| id | property | theorems |
|---|---|---|
| C01 | Adding expressions never changes the value | `c01_sum`, `c01_add`, `c01_sub`, `c01_neg`, `c01_sum_plain`, `c01_ops_plain` |
| C02 | Multiplying expressions never changes the value | `c02_prod`, `c02_mul`, `c02_div`, `c02_prod_plain`, `c02_ops_plain` |
| C03 | Raising to a power never changes the value on the safe domain | `c03_power`, `c03_pow`, `c03_pow_plain`, `c03_int_power` |
| C04 | Power-of-power and power-of-product rewriting outside the safe domain | `c04_collapse_wrong_sign`, `c04_even_root_is_abs`, `c04_split_undefined` |
| C05 | Rational arithmetic is exact | `c05_field`, `c05_lowest_terms`, `c05_int_power`, `c05_zero_power`, `c05_div_zero`, `c05_floordiv_mod`, `c05_reciprocal` |
| C06 | Numeric powers of rationals are exact | `c06_numeric_power`, `c06_rpow_meaning` |
| C07 | Numeric powers outside that domain | `c07_negative_base`, `c07_sign`, `c07_float_root_refuted` |
| C08 | The order in which operands are written does not matter | `c08_sum_order`, `c08_prod_order`, `c08_sort` |
| C09 | Sums and products are flat | `c09_nested_sum_refuted`, `c09_nested_prod_refuted`, `c09_flat_sum` |
| C10 | Subtracting an expression from itself gives 0, dividing it by itself gives 1 | `c10_div_self`, `c10_sub_self`, `c10_sub_symbol` |
| C11 | diff computes the derivative | `c11_diff` |
| C12 | diff refuses what it does not implement | `c12_not_implemented` |
| C13 | diff of non-natural logarithms and of absolute values | `c13_log_base_refuted`, `c13_log_base_differs`, `c13_abs_refuted` |
| C14 | Substitution means evaluation at the substituted point | `c14_subs` |
| C15 | Expanding never changes the value | `c15_expand`, `c15_not_expandable` |
| C16 | All compositions of n into i parts, each exactly once | `c16_compositions`, `c16_once` |
| C17 | Multinomial coefficients and the multinomial theorem | `c17_multinomial`, `c17_theorem` |
| C18 | Trig special values are exact | `c18_total`, `c18_table`, `c18_closed`, `c19_trig` |
| C19 | Trig constructors preserve the value | `c19_trig` |
| C20 | Inverse trig of trig | `c20_asin_sin_refuted`, `c20_range`, `c20_cot`, `c20_cot_refuted` |
| C21 | Inverse trig functions at 0 | `c21_raises`, `c21_values` |
| C22 | Logarithm construction preserves the value | `c22_log` |
| C23 | Absolute value construction preserves the value | `c23_abs`, `c23_abs_plain`, `c23_evenness_refuted` |
| C24 | The integral table is correct | `c24_table` |
| C25 | Linearity steps of the integrator are correct | `c25_pull_constant`, `c25_additivity` |
| C26 | Additivity never loses a summand | `c26_exact`, `c26_dropped`, `c26_lossless`, `c26_monitored`, `c26_lost_summand_refuted`, `c29_dropped_child_refuted` |
| C27 | u-substitution back-substitution is correct | `c27_linear`, `c27_polynomial`, `c27_generic`, `c27_inverse_trig` |
| C28 | Trigonometric substitution by 1/sqrt(1-u^2) | `c28_trig`, `c28_wrong_sign_refuted` |
| C29 | Integration by parts is correct, including the cyclic cases | `c29_check`, `c29_sum`, `c29_cyclic`, `c29_cyclic_two`, `c29_tree`, `c29_dropped_child_refuted` |
| C30 | Polynomial long division is correct and terminates | `c30_division`, `c30_transform`, `c30_total` |
| C31 | Polynomial extraction and reconstruction | `c31_to_const_polynomial`, `c31_polynomial_to_expr`, `c31_rid_ending_zeros`, `c31_lost_multiplier_refuted` |
| C32 | 2x2 matrix inversion | `c32_invert`, `c32_other_sizes` |
| C33 | Partial fractions are correct | `c33_total`, `c33_proportional`, `c33_partial_fractions`, `c33_crash_refuted` |
| C34 | Completing the square is correct | `c34_complete_square`, `c34_square_refuted` |
| C35 | A node of the search tree is never both solved and failed | `c35_solved`, `c35_failed`, `c35_exclusive`, `c35_leaves`, `c35_unfinished_leaves`, `c35_all_done`, `c35_both_refuted` |
| C36 | Propagating solutions backwards is sound | `c36_go_backwards` |
| C37 | eq_with_var is equality up to renaming the variable | `c37_rename`, `c37_value` |
| C38 | replace replaces every occurrence and preserves meaning | `c38_replace_equal`, `c38_replace_var` |
| C39 | Symbol queries agree with each other | `c39_agree`, `c39_independent`, `c39_diff_zero` |
| C40 | Structural equality is an equivalence that implies equal value | `c40_eq_is_identity`, `c40_equivalence`, `c40_eq_strict`, `c40_coincidence_refuted` |
| C41 | Printing is injective enough to key on | `c41_repr_collision_refuted` |
| C42 | Product-to-sum rewriting preserves the value | `c42_product_to_sum_unit`, `c42_two_factors` |
| C43 | Trig rewriting in the integrator preserves the value | `c43_reciprocate`, `c43_rewrite_trig`, `c43_rewrite_pythagorean`, `c43_alternatives` |
| C44 | Log expansion preserves the value | `c44_expand_logs`, `c44_base_refuted` |
| C45 | Factoring preserves the value | `c45_factor` |
| C46 | Common-denominator rewriting preserves the value | `c46_one_fraction` |
| C47 | Definite integrals evaluate the antiderivative at the bounds | `c47_definite`, `c47_pole_refuted` |
| C48 | Integer-base logarithms cannot be printed | `c48_repr_log_raises`, `c48_sum_of_logs_refuted`, `c48_sorting_logs_raises` |
| C49 | LaTeX output is balanced | `c49_balanced`, `c49_plain_names` |
| C50 | Results do not depend on evaluation fuel or caches | `c50_fuel_irrelevant`, `c50_deterministic` |
| C51 | No symbol appears from nowhere | `c51_no_new_symbols`, `c51_library`, `c51_subs` |
| C52 | Equality by double-precision coincidence never fires without pi, e or logarithms | `c52_strict_is_plain` |
| C53 | simplify preserves the value | `c53_simplify`, `c53_trig_simplify`, `c53_pythagorean`, `queries_as_built` |
| C54 | A reported pattern match is a match | `c54_eq`, `c54_eq_up_to_sum` |
| C55 | Pythagorean simplification pairs the wrong terms | `c55_pairing_refuted` |
| C56 | The pattern matcher can report wrong matches | `c56_value_refuted`, `c56_term_used_twice_refuted` |
| C57 | Product-to-sum drops factors | `c57_dropped_factor_refuted`, `c57_one_power_raises` |
| C58 | Sums with even powers of sec and tan cannot be simplified to a sum | `c58_sectan`, `c58_simplify_raises_refuted` |
| C59 | simplify without trig functions never makes an expression longer | `c59_never_longer` |
| C60 | integrate returns an antiderivative | `c60_integrate`, `c60_certified`, `c60_abs_refuted` |
| C61 | The search tree is well formed | `c61_reachable`, `c61_backwards` |
| C62 | integrate answers or gives up, but does not crash | `c62_raises_refuted`, `c62_infinite_refuted`, `c62_square_refuted` |
| C63 | The next node is always an unfinished leaf | `c63_best_nesting`, `c63_best_nesting_infinite`, `c63_breadth_first` |
| C64 | The search loop never works on a missing node | `c64_depth_first`, `c64_choice`, `c64_loop` |
| C65 | nesting is the length of the longest chain of subexpressions | `c65_nesting`, `c65_call`, `c65_infinity_refuted` |
| C66 | Arithmetic of numbers and infinities is that of the extended reals | `c66_add`, `c66_mul`, `c66_sub`, `c66_neg`, `c66_abs`, `c66_pow`, `c66_pow_infinite` |
| C67 | Power of a power is always flattened | `c67_no_power_of_power`, `c67_integrate` |
| C68 | An integral mentions only symbols of the integrand | `c68_scope`, `c68_definite` |
| C69 | Numbers substituted into an expression are computed exactly | `c69_evaluate`, `c69_value` |
| C70 | diff is total and closed on polynomials | `c70_diff`, `c70_diff_laurent`, `c70_diff_rational` |
| C71 | expand multiplies polynomials out completely | `c71_expand`, `c71_expand_incomplete_refuted` |
| C72 | integrate succeeds and is right on every polynomial | `c72_integrate` |
| C73 | subs of monomials into a polynomial is total and closed | `c73_subs` |
| C74 | Definite integrals of polynomials are computed | `c74_definite`, `c74_number` |
| C75 | The printed text denotes the expression | `c75_reads`, `c75_injective`, `c75_polynomials`, `c75_exponent_refuted`, `c75_argument_refuted` |
| C76 | The LaTeX text denotes the expression | `c76_latex_reads`, `c76_injective`, `c76_agrees_with_repr`, `c76_polynomials`, `c76_name_refuted` |
| C77 | Programs over polynomials run to the end and are exact | `c77_computes` |
| C78 | == decides equality of polynomials | `c77_equality`, `c77_positive`, `c77_unexpanded_refuted` |
| C79 | Algebraic and differential laws hold as == on polynomials | `c77_ring`, `c77_powers`, `c77_diff_rules`, `c77_mixed`, `c77_fundamental`, `c77_definite` |
| C80 | == decides equality of sums of monomials with rational exponents | `c80_computes`, `c80_equality`, `c80_laws`, `c80_division`, `c80_powers` |
| C81 | Using an expression does not change it | `c81_immutable`, `c81_finite`, `c81_values`, `c81_operands`, `c81_flatten_refuted`, `c81_skip_refuted`, `c81_log_refuted` |
| C82 | Cached answers are never stale | `c82_replies`, `c82_history_free`, `c82_symbols`, `c82_nesting`, `c82_expand`, `c82_stale_refuted` |
| C83 | symbols(text) makes exactly the named symbols | `c83_symbols`, `c83_any_text` |
| C84 | Comparisons of numbers are those of the extended reals | `c84_compare`, `c84_sign`, `c84_not_number`, `c84_rat`, `c84_rat_zero`, `c84_pi_refuted` |
| C85 | diff without a variable | `c85_diff`, `c85_value_error_refuted` |
| C86 | evalf gives the numerical value | `c86_value`, `c86_total`, `c86_result`, `c86_symbols`, `c86_subs_ignored`, `c86_reciprocal_refuted`, `c86_type_error`, `c86_log_base_refuted` |
| C87 | integrate on sums of powers with any rational exponents | `c87_integrate`, `c87_laurent` |
| C88 | diff and arithmetic on trigonometric polynomials | `c88_computes`, `c88_diff`, `c88_trig` |
| C89 | factor on polynomials | `c89_factor`, `c89_divisor_refuted` |
| C90 | simplify and integrate on sines and cosines | `c90_simplify`, `c90_integrate`, `c90_diff_back` |
| C91 | Coefficients of polynomials | `c91_coefficients`, `c91_product`, `c91_power` |
| C92 | The printed result of a computation is the function computed | `c92_text`, `c92_latex`, `c92_same_text`, `c92_same_latex` |
| C93 | Definite integrals of polynomials plus sines and cosines are computed and right | `c93_definite` |
| C94 | integrate without naming the variable | `c94_one`, `c94_error`, `c94_answer`, `c94_polynomial` |
| C95 | Definite integrals of sums of monomials with negative exponents are computed and right | `c95_definite` |
| C96 | simplify and integrate on sines and cosines of linear functions | `c96_simplify`, `c96_integrate` |
| C97 | Derivatives and definite integrals of sines and cosines of linear functions | `c97_diff`, `c97_diff_back`, `c97_definite` |
| C98 | Substitutions eliminate the variable they replace | `c98_variable`, `c98_trig`, `c98_inverse_trig`, `c98_leftover_refuted` |


How the main groups are proved:

| ids | how |
|---|---|
| C01-C03, C06, C23 | `Sound k -> Sound (build k)` (Sound.v, SoundPow.v), induction on fuel, against `ev`/`wd` |
| C04, C07, C20, C21, C48, C55-C58, C62 | deviations: explicit (families of) inputs, evaluated in the model, refuted against the specification |
| C08 | insertion sort with a strict total order on printed forms is permutation invariant (Sort.v) |
| C11-C15, C19, C22, C42-C46, C53 | `FSound rho fk`: every library function preserves the value; induction on fuel or on the tree |
| C16, C17 | induction; multinomial theorem over R (Combi.v) |
| C24-C34 | derivative laws, `AntiOn` (antiderivative on a box), polynomial lists with Horner value, linear algebra; C33 total: the shapes of PFrac.v; C30 total: PDiv.v |
| C35, C61, C63, C64 | invariants of all heaps reachable by `grow` (Shape.v), tree induction |
| C36, C47, C60 | invariant `InvT` of the search: every node's solution is an antiderivative of what the node stands for (SearchSound.v) |
| C37-C41, C54 | induction on trees |
| C49 | a stack machine for TeX tokens; all printing functions keep it balanced (Latex.v) |
| C50 | monotonicity of `build` |
| C51, C67, C68 | hereditary predicates through every function (Atoms.v, Her*.v); scope invariant of the search tree (HerSearch.v, Pure.v) |
| C52 | agreement of strict and plain runs on expressions without pi, e, log (Agree.v, Atoms.v) |
| C65, C66 | induction; case analysis |
| C69-C74 | totality: closure of polynomials under every function used (Frag*.v), for any oracle and any monitor, then the soundness theorems |
| C75 | a reader (Read.v, recursive descent) with its grammar; the printer, by induction on fuel, produces phrases of the grammar with the value of the expression (Canon.v, ReadRepr.v) |
| C76 | a LaTeX reader (ReadTex.v: characters and control words, recursive descent) with its grammar; latex() produces phrases of the grammar with the value of the expression (CanonR.v, TexRepr.v); totality on polynomials (PropsN.v) |
| C77-C80 | normal forms of polynomials (NForm.v): closed under the constructors, expand, diff, subs and the search of integrate (NOps.v, NExp.v, NInt.v); unique, by evaluating at exponentials (NUniq.v); division and integer powers of monomials (NInv.v); laws by Coquelicot's calculus (PropsO.v) |
| C81, C82 | store of objects; invariant (acyclic, flat, every cache entry right) preserved by every step of a history; values preserved by in-place flattening |
| C83-C85 | induction on the text; Rbar order; C11 |
| C86 | Evalf, PropsS | induction on the expression; floats abstract, exactness a hypothesis; the real numbers as instance |
| C87 | FragX, FragXLib, PropsT | the sum fragment redone over opaque atoms (symbols, log of an absolute value); run followed step by step, soundness from C60, values restricted to the symbols of the expression by agreement |
| C88 | FragX, PropsU | the class of sums of products of opaque atoms is closed under the constructors and diff; values from C01, C02, C11; sin(k s) normalised by uniqueness of normal forms |
| C89 | NFac, PropsV | inverses and quotients of monomials stay normal; degrees and coefficients read off values; the loop over common factors computes minima; the sum of quotients is a permutation by uniqueness of normal forms |
| C90 | FragG, TrigTot, IntTree, PropsW | Sum/Prod/simplify keep the class (Pythagorean, reciprocal, product-to-sum and fraction rules find nothing); the search tree of IntTree (shared with C72) is solved by Additivity, PullConstant and the table |
| C91 | PolyTot, PropsY | on a normal form in one symbol every term is q, q*v or q*v^k, so to_poly's index-and-add loop completes (induction over the terms); the round trip by uniqueness of normal forms |
| C92 | PropsZ | programs produce normal forms (C77), normal forms are canonical, canonical expressions read back (C75, C76), normal forms are unique |
| C93 | TrigTot, TrigDef | C90's antiderivative, substitution of the bounds term by term (powers, sin and cos of numbers), difference and simplify keep the class with sin(p), cos(p) as extra atoms; value by C47 |
| C94 | Unnamed | the list of symbols has one element; then C72, C74 |
| C95 | PropsT, LogDef | C87's antiderivative; substituting a number into a monomial over symbols and log|v| gives a monomial over symbols and logarithms of numbers (an opaque base class of FragX); value by C47 on the box where v has the sign of a |
| C96 | LinTot, IntTree2, LinInt, LinProps | as C90 with more opaque atoms; the search tree gets LinearUSub nodes (IntTree2: a measure decreases along every step, also through renamed variables), whose integrand in the new variable is solved by the table and substituted back |
| C97 | LinDef | term by term: diff stays in the class of C96; a number put for v lands in the class of C93 (sin and cos of positive numbers), whose difference and simplify lemmas apply; values by C11 and C47 |
| C98 | UsubVar | induction over _check: every subexpression that contains v is u itself (when nothing is rescaled), so replace() removes it; for trig substitutions by comparing the two counts the check compares; the leftover is computed by the kernel and its derivative at 1 compared |

## 3. Trusted base

* The Coq 8.16.1 kernel (including its `vm_compute` for examples and refutations).  No plugin, no disabled check,
  no axiom of our own, no `Admitted`, no functor, no module type.
* Axioms (all from the standard library, shown by `Print Assumptions`): the real numbers
  (`ClassicalDedekindReals.sig_forall_dec`, `ClassicalDedekindReals.sig_not_dec`),
  `FunctionalExtensionality.functional_extensionality_dep`, and `Classical_Prop.classic` (Coquelicot and the
  decidability of "defined at rho").  `vcheck` also lists the sealed constants of
  `Reals.Rdefinitions` (`RbaseSymbolsImpl.*`, `RinvImpl.*`) and of `ssr.ssrunder.Under_rel`: these are opaque module
  fields with implementations, not axioms.  Section 7 lists `Print Assumptions` for every theorem.
* Libraries: Coquelicot (derivatives, integrals, extended reals) and through it mathcomp's ssreflect.
* The reading of /repo as text: each definition cites file and lines.  `Conform.v` (generated by
  `tools/gen_conform.py` from `tools/conform_cases.py`) evaluates the expectations of the project's own tests in
  the model; these are tests of the model's fidelity, not proofs.
* `fpow_exact`: the one assumption about floating point, a hypothesis of the theorems that need it.
  `Rat ** Rat` is computed in Python as `int ** float` and accepted if the result is an integer; `fpow a x` stands for
  that computation and `fpow_exact` says an accepted integer is the exact root.  `Oracle.v` proves
  that the exact-root oracle `fpow_exact_oracle` meets it and that rounding to 53 bits does not (C07).

## 4. Modelled and not modelled

Modelled, branch by branch (file → model):

| /repo/src/simpy | model |
|---|---|
| expr.py: Rat, Pi, E, Infinity, NegInfinity, Symbol, Sum, Prod, Power, Abs, log, sqrt, trig classes (`__new__`, operators, repr, `_sort_terms`, `_combine_like_terms*`, accumulate, deconstruct_power, ...) | Expr, Kernel, Funcs, Numbers |
| expr.py: subs, diff | Calc |
| expr.py: expandable, expand, numerator_denominator | Expand |
| expr.py: Sum.factor | Factor |
| expr.py: latex methods; latex.py | Latex |
| expr.py: nesting, contains, has, symbols, remove_const_factor, is_subtraction, `_is_strictly_positive` | Expr, Search, Poly |
| combinatorics.py | Combi |
| regex.py: replace_*, count, contains_cls, eq (matcher with wildcards), get_anys | Regex, Match |
| utils.py: eq_with_var, count_symbols | Regex |
| simplify/simplify.py | Simp, TrigSimp |
| simplify/product_to_sum.py | Pts |
| polynomial.py, linalg.py | Poly, PolyQ |
| integral_table.py | Table |
| transforms.py: all transforms (check, forward, backward), Node | Trans, Search |
| expr.py: object identity, in-place flattening, caches | Objects |
| expr.py: symbols, diff, comparisons | Api |
| expr.py: evalf | Evalf |
| integration.py: Integration.integrate, integrate, integrate_bounds, the depth-first and breadth-first choices, go_backwards | Search |

Not modelled, and why:

* Binary64 arithmetic: no `Float` occurs in the model of the constructors (inputs are exact); `evalf` is modelled over an
  arbitrary arithmetic (Evalf.v).  In the constructors a NaN result (inf - inf, 0*inf) is `Stop Unmodelled`.
  Consequently `_cast` of Python floats is not modelled.
* In the value-level model (all files but Objects.v ... PropsQ.v) expressions are immutable and have no caches.  Objects.v
  models the store of Python objects, the three places that change an object in place, and the caches; C81 and C82 prove
  that for tame histories the two views agree, and show what happens otherwise.  There, answers of cached methods are
  stored as values, not as references.  `special_values` (a class-level cache of constants) is not in the store model.
* `OverflowError` when a huge rational is raised to a fractional power (Python converts it to a double).
* The wall clock of `integrate`: replaced by the number `k` of further rounds, universally quantified.
* Random names: `random_id` for wildcards and the names of new variables (`nm`) are parameters.
* `debug/` (logging, tree printing, interactive selection), `Node.root`, `Node.distance_from_root`, `Node.is_stale`,
  `Expr.__mod__`/`__floordiv__` beyond Rat, the `benchmark/` folder.
* Python set order in `symbols()`: the model uses first-occurrence order; nothing proved depends on it (`integrate`
  only uses it when there is exactly one symbol).
* Environment: the dataclass default `base: Expr = e` of `log` makes the module fail to import on Python ≥ 3.11; the
  model describes the behaviour on ≤ 3.10.  Ragged `np.array` (PartialFractions) raises ValueError, as in NumPy ≥ 1.24.

Simplifications are stated in the comment of each definition.

## 5. Partial and conditional results

No property has status partial.  Points where the English property is stronger than what holds of the code are
split into a proved positive theorem and a `_refuted` theorem that exhibits the violation (see MANIFEST notes).
C68 and C67's integrate half are proved for monitored runs; for the plain code the same proof (`integrate_scope`,
HerSearch.v) gives the conclusion for every run whose final tree has no node with both an Additivity child and a
substitution child.

## 6. Testing the theorems

`seeded/LOG.jsonl`: one line per wrong program tried (definition edited, edit, claim broken, theorems that
failed, theorems tightened).  The harness copies the development, applies one edit to the model, rebuilds with every
failing lemma replaced by an assumption, and reports which property theorems fail or come to depend on a failed
lemma.

## 7. Print Assumptions of each theorem

(Generated by `tools/gen_assumptions.py`.)

* **Closed under the global context** (107): `c05_field`, `c05_int_power`, `c05_zero_power`, `c05_div_zero`, `c05_floordiv_mod`, `c07_float_root_refuted`, `c08_sum_order`, `c08_prod_order`, `c08_sort`, `c09_nested_sum_refuted`, `c09_nested_prod_refuted`, `c09_flat_sum`, `c10_div_self`, `c10_sub_self`, `c10_sub_symbol`, `c12_not_implemented`, `c15_not_expandable`, `c16_compositions`, `c16_once`, `c17_multinomial`, `c18_closed`, `c20_asin_sin_refuted`, `c21_raises`, `c23_evenness_refuted`, `c37_rename`, `c39_agree`, `c40_eq_is_identity`, `c40_eq_strict`, `c48_repr_log_raises`, `c48_sum_of_logs_refuted`, `c48_sorting_logs_raises`, `c50_fuel_irrelevant`, `c50_deterministic`, `c51_no_new_symbols`, `c51_library`, `c51_subs`, `c52_strict_is_plain`, `queries_as_built`, `c57_one_power_raises`, `c58_sectan`, `c58_simplify_raises_refuted`, `c59_never_longer`, `c30_division`, `c31_rid_ending_zeros`, `c32_invert`, `c32_other_sizes`, `c33_crash_refuted`, `c43_alternatives`, `c26_exact`, `c26_dropped`, `c26_lossless`, `c26_monitored`, `c26_lost_summand_refuted`, `c35_solved`, `c35_failed`, `c35_exclusive`, `c35_leaves`, `c35_unfinished_leaves`, `c35_all_done`, `c35_both_refuted`, `c61_reachable`, `c61_backwards`, `c62_raises_refuted`, `c62_infinite_refuted`, `c62_square_refuted`, `c63_best_nesting`, `c63_best_nesting_infinite`, `c63_breadth_first`, `c64_depth_first`, `c64_choice`, `c64_loop`, `c49_balanced`, `c49_plain_names`, `c65_nesting`, `c65_call`, `c65_infinity_refuted`, `c67_no_power_of_power`, `c67_integrate`, `c68_scope`, `c68_definite`, `c69_evaluate`, `c71_expand_incomplete_refuted`, `c81_immutable`, `c81_flatten_refuted`, `c81_skip_refuted`, `c81_log_refuted`, `c82_replies`, `c82_history_free`, `c82_symbols`, `c82_nesting`, `c82_stale_refuted`, `c83_symbols`, `c83_any_text`, `c84_not_number`, `c84_rat_zero`, `c85_value_error_refuted`, `c86_result`, `c86_symbols`, `c86_subs_ignored`, `c86_reciprocal_refuted`, `c89_divisor_refuted`, `c94_one`, `c94_error`, `c94_answer`, `c98_variable`, `c98_trig`, `c98_inverse_trig`.
* **`ClassicalDedekindReals.sig_forall_dec`, `FunctionalExtensionality.functional_extensionality_dep`** (11): `c17_theorem`, `c66_add`, `c66_mul`, `c66_sub`, `c66_neg`, `c66_abs`, `c66_pow`, `c66_pow_infinite`, `c84_compare`, `c84_sign`, `c84_rat`.
* **`ClassicalDedekindReals.sig_forall_dec`, `ClassicalDedekindReals.sig_not_dec`, `Classical_Prop.classic`, `FunctionalExtensionality.functional_extensionality_dep`** (166): `c01_sum`, `c01_add`, `c01_sub`, `c01_neg`, `c01_sum_plain`, `c01_ops_plain`, `c02_prod`, `c02_mul`, `c02_div`, `c02_prod_plain`, `c02_ops_plain`, `c03_power`, `c03_pow`, `c03_pow_plain`, `c03_int_power`, `c04_collapse_wrong_sign`, `c04_even_root_is_abs`, `c04_split_undefined`, `c05_lowest_terms`, `c05_reciprocal`, `c06_numeric_power`, `c06_rpow_meaning`, `c07_negative_base`, `c07_sign`, `c11_diff`, `c13_log_base_refuted`, `c13_log_base_differs`, `c13_abs_refuted`, `c14_subs`, `c15_expand`, `c18_total`, `c18_table`, `c19_trig`, `c20_range`, `c20_cot`, `c20_cot_refuted`, `c21_values`, `c22_log`, `c23_abs`, `c23_abs_plain`, `c37_value`, `c38_replace_equal`, `c38_replace_var`, `c39_independent`, `c39_diff_zero`, `c40_equivalence`, `c40_coincidence_refuted`, `c41_repr_collision_refuted`, `c45_factor`, `c42_product_to_sum_unit`, `c42_two_factors`, `c44_expand_logs`, `c44_base_refuted`, `c46_one_fraction`, `c53_simplify`, `c53_trig_simplify`, `c53_pythagorean`, `c54_eq`, `c54_eq_up_to_sum`, `c55_pairing_refuted`, `c56_value_refuted`, `c56_term_used_twice_refuted`, `c57_dropped_factor_refuted`, `c24_table`, `c25_pull_constant`, `c25_additivity`, `c27_linear`, `c27_polynomial`, `c27_generic`, `c27_inverse_trig`, `c28_trig`, `c28_wrong_sign_refuted`, `c30_transform`, `c30_total`, `c31_to_const_polynomial`, `c31_polynomial_to_expr`, `c31_lost_multiplier_refuted`, `c33_total`, `c33_proportional`, `c33_partial_fractions`, `c34_complete_square`, `c34_square_refuted`, `c43_reciprocate`, `c43_rewrite_trig`, `c43_rewrite_pythagorean`, `c29_dropped_child_refuted`, `c29_check`, `c29_sum`, `c29_cyclic`, `c29_cyclic_two`, `c29_tree`, `c36_go_backwards`, `c47_definite`, `c47_pole_refuted`, `c60_integrate`, `c60_certified`, `c60_abs_refuted`, `c69_value`, `c70_diff`, `c70_diff_laurent`, `c70_diff_rational`, `c71_expand`, `c72_integrate`, `c73_subs`, `c74_definite`, `c74_number`, `c75_reads`, `c75_injective`, `c75_polynomials`, `c75_exponent_refuted`, `c75_argument_refuted`, `c76_latex_reads`, `c76_injective`, `c76_agrees_with_repr`, `c76_polynomials`, `c76_name_refuted`, `c77_computes`, `c77_equality`, `c77_positive`, `c77_unexpanded_refuted`, `c77_ring`, `c77_powers`, `c77_diff_rules`, `c77_mixed`, `c77_fundamental`, `c77_definite`, `c80_computes`, `c80_equality`, `c80_laws`, `c80_division`, `c80_powers`, `c81_finite`, `c81_values`, `c81_operands`, `c82_expand`, `c84_pi_refuted`, `c85_diff`, `c86_value`, `c86_total`, `c86_type_error`, `c86_log_base_refuted`, `c87_integrate`, `c87_laurent`, `c88_computes`, `c88_diff`, `c88_trig`, `c89_factor`, `c90_simplify`, `c90_integrate`, `c90_diff_back`, `c91_coefficients`, `c91_product`, `c91_power`, `c92_text`, `c92_latex`, `c92_same_text`, `c92_same_latex`, `c93_definite`, `c94_polynomial`, `c95_definite`, `c96_simplify`, `c96_integrate`, `c97_diff`, `c97_diff_back`, `c97_definite`, `c98_leftover_refuted`.

