# Generates /verif/properties.jsonl (run from /verif).  Kept so that the list can be extended consistently.
import json
P=[]
def p(title, statement, quantifier, why, anchors):
    P.append(dict(id="C%02d"%(len(P)+1), title=title, statement=statement, quantifier=quantifier, why_tests_cant=why, anchors=anchors))
E="src/simpy/expr.py"
p("Adding expressions never changes the value",
  "Building a sum (a + b, a - b, -a, Sum([...])) flattens, merges like terms, drops zeros and sorts, yet the expression returned has, at every assignment of the symbols where all operands are defined, exactly the sum of the operands' values.",
  "every finite list of operand expressions (any depth, any mixture of node types) and every assignment of real numbers to symbols inside the operands' domain",
  "tests compare a handful of literal sums; merging depends on structural equality, ordering and list mutation and must be right for every list",
  [E+":Sum.__new__", E+":_combine_like_terms_sum", E+":_deconstruct_prod", E+":Associative._flatten_terms", E+":Associative._sort_terms", E+":accumulate"])
p("Multiplying expressions never changes the value",
  "Building a product (a * b, a / b, Prod([...])) flattens, merges powers of equal bases, accumulates constants and sorts, yet the result has, at every assignment inside the operands' domain, exactly the product (quotient) of the operands' values.",
  "every finite list of operand expressions and every real assignment inside the operands' domain",
  "like-base merging x^a*x^b -> x^(a+b) and the constant bookkeeping interact for arbitrary operand lists; tests cover a few",
  [E+":Prod.__new__", E+":_combine_like_terms", E+":deconstruct_power", E+":Expr.__truediv__"])
p("Raising to a power never changes the value on the safe domain",
  "Power(b, x) (b ** x, sqrt) rewrites through a dozen rules (0/1 exponents, numeric powers, power of power, power of product, b^log_b, sign extraction); wherever the exponent is an integer literal and b is non-zero (or the exponent non-negative), or b is positive together with all factors / inner bases it is split into, the result has exactly the value b^x.",
  "every pair of expressions and every real assignment in the stated domain",
  "the rules call each other recursively through Prod and Power for arbitrary nesting",
  [E+":Power.__new__", E+":_multiply_exponents", E+":_accumulate_power", E+":Rat.__pow__"])
p("Power-of-power and power-of-product rewriting outside the safe domain",
  "(b^m)^n collapses to b^(m*n) (or |b|) and (a*b)^n splits to a^n*b^n for every n. A user relies on this for all real symbols; it is value-preserving only on the domain of C03, and for every negative b, even m and suitable fractional n the result differs from, or is undefined unlike, the input.",
  "every real assignment of the symbols, every rational exponent pair",
  "the failing region (negative bases) is never sampled by the tests",
  [E+":_multiply_exponents", E+":Power.__new__"])
p("Rational arithmetic is exact",
  "Rat +, -, *, /, **(integer), //, % and unary minus on rationals return exactly the rational number the field operation defines; division by zero yields the infinity constant or ZeroDivisionError, never a finite number; // and % satisfy the floor-division law with remainder in [0, divisor).",
  "every pair of rational numbers (any numerator/denominator size, either sign)",
  "unbounded integers; tests check a few fractions",
  [E+":Rat", E+":_accumulate_power", E+":accumulate"])
p("Numeric powers of rationals are exact",
  "Power(Rat, Rat) returns an expression whose real value is exactly base^exponent for every positive base (given that the floating-point root used internally is only accepted when exact), and for every non-zero base with an integer exponent.",
  "every rational base and exponent",
  "the code decides perfect powers through floating point and has eight branches on sign, numerator and denominator",
  [E+":_accumulate_power", E+":Power.__new__"])
p("Numeric powers outside that domain",
  "For a negative rational base and a fraction exponent with odd denominator the constructor returns -(|b|^x) whatever the numerator's parity, so even numerators get the wrong sign; and a perfect-power test done in binary64 accepts integers that are not perfect powers (e.g. sqrt(2^106+1) becomes 2^53).",
  "every negative rational base, every exponent p/q with q odd; every floating-point power function that is exact on exact powers",
  "tests even pin the wrong sign; large integers are not tested",
  [E+":_accumulate_power"])
p("The order in which operands are written does not matter",
  "Sorting of the terms depends only on the set of terms: two permutations of the same terms with pairwise distinct printed forms sort to the same list, so a + b == b + a and a * b == b * a hold structurally for terms that are not merged.",
  "every list of terms with pairwise distinct printed forms and every permutation of it",
  "a comparator is a total order or not for all triples at once; tests try a few pairs",
  [E+":Associative._sort_terms", E+":Sum._sort_terms"])
p("Sums and products are flat",
  "The documentation promises that every Sum/Prod produced is flattened. The code violates it: merging like terms can leave a Sum inside a Sum and a Prod inside a Prod.",
  "every constructor call",
  "the violating inputs need a particular cancellation pattern",
  [E+":Associative._flatten", E+":_combine_like_terms_sum", E+":_combine_like_terms"])
p("Subtracting an expression from itself gives 0, dividing it by itself gives 1",
  "For every expression that is not itself a sum/product/power/number, x - x returns the number 0 and x / x returns the number 1 (structurally, not only in value).",
  "every such expression",
  "holds for infinitely many shapes of expressions",
  [E+":Sum.__new__", E+":Prod.__new__"])
p("diff computes the derivative",
  "For every expression whose logarithms are natural, that contains no absolute value of a variable expression, and every point in the interior of its domain, expr.diff(var) evaluates to the derivative of the expression's value with respect to var.",
  "every expression (any nesting of sums, products, powers, exponentials, logs, trig and inverse trig), every variable, every interior point",
  "calculus rules composed over arbitrary trees; tests check a dozen derivatives by structural comparison",
  [E+":Sum.diff", E+":Prod.diff", E+":Power.diff", E+":log.diff", E+":sin.diff", E+":asin.diff", E+":diff"])
p("diff refuses what it does not implement",
  "Differentiating a power whose base and exponent both contain the variable raises NotImplementedError; diff never returns an answer for it.",
  "every power expression with the variable on both sides",
  "quantifies over all base/exponent pairs",
  [E+":Power.diff"])
p("diff of non-natural logarithms and of absolute values",
  "diff of log(u, b) returns u'/u for every base b (it ignores the base), so it is the derivative only when b = e; diff of abs(u) returns u', so it has the wrong sign wherever u < 0.",
  "every inner expression, base and point",
  "no test differentiates either",
  [E+":log.diff", E+":Abs.diff"])
p("Substitution means evaluation at the substituted point",
  "expr.subs({name: value, ...}) has at every assignment the value the original expression has at the assignment where each named symbol is given the value of its replacement; symbols not named are untouched.",
  "every expression in the integer-power/positive-base fragment, every finite substitution map, every assignment in the domain",
  "substitution re-runs all constructors on arbitrary results",
  [E+":Symbol.subs", E+":Sum.subs", E+":Prod.subs", E+":Power.subs", E+":SingleFunc.subs", E+":log.subs"])
p("Expanding never changes the value",
  "expr.expand() distributes products over sums and applies the multinomial theorem; the result has the same value as the input at every assignment in the domain; calling it on a non-expandable expression raises AssertionError.",
  "every expandable expression in the fragment, every assignment in the domain",
  "any number of factors, terms and any exponent n",
  [E+":Sum._expand", E+":Prod._expand", E+":Power._expand", E+":Expr.expand", E+":Prod._numerator_denominator"])
p("All compositions of n into i parts, each exactly once",
  "generate_permutations(i, n) returns every list of i non-negative integers summing to n, no other list, and no list twice.",
  "all natural numbers i, n",
  "combinatorial completeness for all sizes",
  ["src/simpy/combinatorics.py:generate_permutations"])
p("Multinomial coefficients and the multinomial theorem",
  "multinomial_coefficient(xs, n) is n! / (prod xs_i! * (n - sum xs)!) exactly (the integer division is exact) whenever sum xs <= n and xs is non-empty, and summing coefficient * prod t_i^{p_i} over generate_permutations gives (t_1+...+t_i)^n.",
  "all lists of naturals, all n, all real t_1..t_i",
  "holds for all sizes; exactness of // cannot be sampled",
  ["src/simpy/combinatorics.py:multinomial_coefficient", E+":Power._expand"])
p("Trig special values are exact",
  "sin, cos, tan, sec, csc and cot of any rational multiple of pi whose reduction mod 2 is one of the 16 tabulated angles return an expression whose exact real value is the function's value there (wherever it is defined).",
  "all rational multiples of pi (all integers k of turns), all six functions",
  "tests check 16 angles numerically to 7 digits and only one turn",
  [E+":TrigFunction.__new__", E+":sin._special_values", E+":cos._special_values", E+":tan._special_values", E+":csc._special_values", E+":sec._special_values", E+":cot._special_values"])
p("Trig constructors preserve the value",
  "Constructing sin/cos/tan/csc/sec/cot of any expression (sign extraction, dropping of period multiples, special angles, composition with an inverse function) returns an expression with the same value wherever the argument is defined and the function is defined there.",
  "every inner expression and assignment in the domain",
  "periodicity and parity rewrites apply to arbitrary sums containing multiples of pi",
  [E+":TrigFunction.__new__", E+":sin.__new__", E+":cos.__new__", E+":tan.__new__", E+":TrigFunction._double_simplification_dict"])
p("Inverse trig of trig",
  "asin(sin(x)), acos(cos(x)), atan(tan(x)) are rewritten to x and e.g. atan(cot(x)) to 1/x for every x: the first family is right exactly on the principal range, the second is wrong.",
  "every inner expression and every assignment",
  "the tests assert the wrong rewriting atan(cot(u)) == 1/u",
  [E+":TrigFunction.__new__"])
p("Inverse trig functions at 0",
  "asin(0), acos(0), atan(0) are legal mathematical values; in the code all three raise ValueError (a malformed table), so every definite integral whose antiderivative contains asin/atan and whose bound is 0 fails.",
  "every way of reaching an inverse trig constructor with the number 0",
  "not covered by tests",
  [E+":asin._special_values", E+":acos._special_values", E+":atan._special_values"])
p("Logarithm construction preserves the value",
  "log(x, base) simplifies log(1), log_b(b), log_b(b^y); the result has the value ln x / ln base wherever that is defined.",
  "every pair of expressions, every assignment with positive argument and base other than 1",
  "rewrites on arbitrary expressions",
  [E+":log.__new__"])
p("Absolute value construction preserves the value",
  "abs(x) returns an expression of value |x| for every x (through positivity inference on sums, products and powers); but structural evenness abs(-x) == abs(x) fails because the re-run initialiser restores the negated argument.",
  "every expression and every assignment in its domain",
  "positivity inference is recursive over arbitrary trees",
  [E+":Abs.__new__", E+":_is_strictly_positive"])
p("The integral table is correct",
  "Whenever check_integral_table(f, x) returns F, the derivative of F's value with respect to x is f's value at every interior point of the domain of both.",
  "every integrand and every variable matched by the table, every interior point",
  "infinitely many integrands (any constant expression as coefficient, exponent or base)",
  ["src/simpy/integral_table.py:check_integral_table", "src/simpy/utils.py:eq_with_var"])
p("Linearity steps of the integrator are correct",
  "PullConstant and Additivity: if the children's solutions are antiderivatives of the children's integrands, the solution written back to the parent is an antiderivative of the parent's integrand.",
  "every product/sum integrand, every constant, every child solution",
  "needs all shapes of integrands",
  ["src/simpy/transforms.py:PullConstant", "src/simpy/transforms.py:Additivity", "src/simpy/transforms.py:Node.add_child"])
p("Additivity never loses a summand",
  "When a sum is split, every summand must become a child. Node.add_child silently skips a child equal (up to the variable) to an ancestor, so a summand that repeats an ancestor's integrand is dropped and the parent's solution misses a term.",
  "every node tree and sum integrand",
  "requires a history in which a summand coincides with an ancestor",
  ["src/simpy/transforms.py:Node.add_child", "src/simpy/transforms.py:Additivity.forward"])
p("u-substitution back-substitution is correct",
  "Every substitution transform writes F(u(x)) to the parent; if F' = g and g(u(x))*u'(x) = f(x) then the parent's solution is an antiderivative of f.",
  "every child solution, every substitution u, every point",
  "chain rule for arbitrary expressions through the replace function",
  ["src/simpy/transforms.py:USub.backward", "src/simpy/regex.py:replace"])
p("Trigonometric substitution by 1/sqrt(1-u^2)",
  "TrigUSub2 replaces sin(x) by u and dx by du/sqrt(1-u^2): the substitution identity holds exactly where cos(x) > 0 (for sin), resp. sin(x) > 0 (for cos), everywhere for tan, and has the wrong sign where cos(x) < 0.",
  "every integrand that is a function of sin x / cos x / tan x, every x",
  "sign depends on the quadrant",
  ["src/simpy/transforms.py:TrigUSub2"])
p("Integration by parts is correct, including the cyclic cases",
  "ByParts returns u*v + integral(-v*u'), or, when the new integrand is a constant multiple c of the old one, u*v/(1-c); in each case the parent's solution is an antiderivative of the integrand.",
  "every choice of u, dv and every constant factor other than 1",
  "algebra over arbitrary functions",
  ["src/simpy/transforms.py:ByParts"])
p("Polynomial long division is correct and terminates",
  "PolynomialDivision: for coefficient lists with non-zero leading coefficient of the divisor the loop terminates and numerator = quotient*denominator + remainder with the remainder shorter than the divisor. Applied to a product of a polynomial (computed by any program of constructor calls, with an integral numeric factor) and the reciprocal of a linear a*x+b, it always succeeds.",
  "all coefficient lists of rationals of all lengths",
  "unbounded degree; termination",
  ["src/simpy/transforms.py:PolynomialDivision.forward", "src/simpy/polynomial.py:rid_ending_zeros"])
p("Polynomial extraction and reconstruction",
  "to_const_polynomial(expr, x) either raises AssertionError or returns coefficients whose polynomial has the value of expr for every x; polynomial_to_expr(coeffs, x) has the value of the polynomial; rid_ending_zeros removes exactly the trailing zeros and keeps the polynomial's value.",
  "all expressions, all coefficient lists, all x",
  "all degrees and shapes",
  ["src/simpy/polynomial.py"])
p("2x2 matrix inversion",
  "invert(M) for a 2x2 rational matrix returns None exactly when det M = 0 and otherwise the exact two-sided inverse; any other size raises.",
  "all 2x2 rational matrices",
  "all values",
  ["src/simpy/linalg.py:invert"])
p("Partial fractions are correct",
  "The two coefficients computed by PartialFractions satisfy num/(d1*d2) = A/d1 + B/d2 at every x where d1 and d2 do not vanish, for all linear d1, d2 and constant or linear numerators, and the transform then always applies, without an exception; for proportional d1, d2 it does not apply. Denominators of unequal degree, or two quadratic ones, make it raise.",
  "all rational coefficients with non-zero determinant (numeric factors of the numerator integral), all orders of the factors, all x",
  "all coefficients",
  ["src/simpy/transforms.py:PartialFractions.check", "src/simpy/linalg.py:invert"])
p("Completing the square is correct",
  "The rewritten quadratic (((x+c)/sqrt(d))^2+1)*d*a equals a*x^2+b*x+a0 for every x whenever d > 0. For d < 0 the intermediate sqrt(d) is undefined over the reals; for d = 0 (a perfect square) the code rewrites the quadratic to 0 and its reciprocal to infinity, so integrate(1/(x^2-2x+1)) returns oo*x.",
  "all rational quadratics, all x",
  "all coefficients; sign of d",
  ["src/simpy/transforms.py:CompleteTheSquare.forward"])
p("A node of the search tree is never both solved and failed",
  "is_solved and is_failed of a node are mutually exclusive for trees of the shape the search builds, and a node is finished iff it has no unfinished leaf that matters; status is determined by AND/OR semantics over the leaves.",
  "all finite trees",
  "arbitrary trees and histories",
  ["src/simpy/transforms.py:Node.is_solved", "src/simpy/transforms.py:Node.is_failed", "src/simpy/transforms.py:Node.unfinished_leaves"])
p("Propagating solutions backwards is sound",
  "After _go_backwards on a solved tree in which each step is locally correct, root.solution is an antiderivative of the root integrand; partially solved branches never contribute.",
  "all solved trees (any depth, any mixture of AND/OR nodes)",
  "arbitrary trees; order of leaves",
  ["src/simpy/integration.py:Integration._go_backwards"])
p("eq_with_var is equality up to renaming the variable",
  "eq_with_var((a, x), (b, y)) holds iff b is the tree obtained from a by renaming x to y; in particular equal-up-to-renaming expressions have equal values at corresponding points.",
  "all expression pairs and variables",
  "recursion over arbitrary trees",
  ["src/simpy/utils.py:eq_with_var"])
p("replace replaces every occurrence and preserves meaning",
  "replace(expr, old, new) has at every assignment where new and old have equal value the same value as expr; replacing a variable by u equals evaluation with the variable set to u's value; if old does not occur the value is unchanged.",
  "all expressions in the fragment, all old/new, all assignments",
  "recursion through simplifying constructors",
  ["src/simpy/regex.py:replace", "src/simpy/regex.py:replace_factory_list"])
p("Symbol queries agree with each other",
  "contains(var), var in symbols(), count(expr, var) > 0 and count_symbols(expr) > 0 agree; an expression that does not contain var has a value independent of var, and its derivative with respect to var evaluates to 0.",
  "all expressions and symbols",
  "recursion over arbitrary trees",
  [E+":Expr.contains", E+":Expr.symbols", "src/simpy/regex.py:count", "src/simpy/regex.py:general_count", "src/simpy/utils.py:count_symbols"])
p("Structural equality is an equivalence that implies equal value",
  "== on expressions without float-valued constants is reflexive, symmetric, transitive, and equal expressions have equal values at every assignment; with the constants pi and e it is not: a specific rational equals pi (their double value), e != that rational while the rational == e, and pi + q collapses to 2*pi.",
  "all expression pairs/triples, all assignments",
  "needs all trees; the coincidence is one rational in infinitely many",
  [E+":Num.__eq__", E+":E.__eq__", E+":Pi", E+":Symbol.__eq__"])
p("Printing is injective enough to key on",
  "factor(), regex matching and sorting identify expressions by repr. Different expressions can print identically (sin((x+1)*(y^2+1)) and sin(x+1)*(y^2+1)), so keying on repr conflates expressions of different value.",
  "all pairs of expressions",
  "collision needs a specific shape",
  [E+":_repr", E+":Sum.factor", "src/simpy/regex.py:consolidate"])
p("Product-to-sum rewriting preserves the value",
  "product_to_sum_unit and the intermediate two-factor identities return expressions with the same value as the product of sines and cosines they replace, for every product except those with three or more factors mixing powers and plain factors (C57).",
  "all inner expressions, multipliers, exponents and assignments",
  "all angles and all powers n",
  ["src/simpy/simplify/product_to_sum.py"])
p("Trig rewriting in the integrator preserves the value",
  "RewriteTrig's three rewritings, RewritePythagorean's odd-power rewriting and _reciprocate_trigs return expressions of equal value wherever both sides are defined. The rewritings of a node are alternatives: the node counts as solved as soon as one of them is.",
  "all integrands, exponents and points",
  "all exponents and nestings",
  ["src/simpy/transforms.py:RewriteTrig", "src/simpy/transforms.py:RewritePythagorean", "src/simpy/simplify/simplify.py:_reciprocate_trigs", "src/simpy/regex.py:replace_class"])
p("Log expansion preserves the value",
  "expand_logs preserves the value for natural logarithms wherever every produced logarithm is defined; for any other base it silently returns natural logarithms, multiplying the value by ln(base).",
  "all log expressions and assignments",
  "no test has a non-natural log",
  ["src/simpy/simplify/simplify.py:_log_perform", "src/simpy/simplify/simplify.py:expand_logs"])
p("Factoring preserves the value",
  "Sum.factor() returns an expression with the same value as the sum for all sums whose terms have rational coefficients and rational exponents, at every assignment where the common factor is non-zero.",
  "all sums and assignments",
  "arbitrary numbers of terms and factors",
  [E+":Sum.factor"])
p("Common-denominator rewriting preserves the value",
  "rewrite_as_one_fraction(sum) has the value of the sum wherever the denominators are non-zero.",
  "all sums and assignments",
  "arbitrary many fractions",
  ["src/simpy/simplify/simplify.py:rewrite_as_one_fraction"])
p("Definite integrals evaluate the antiderivative at the bounds",
  "integrate(f, (x, a, b)) is F(b) - F(a) for the antiderivative F found; it equals the integral when F is an antiderivative on all of [a, b], and is reported even when f has a pole inside (1/x^2 on [-1,1] gives -2).",
  "all integrands, bounds",
  "all bounds; poles are not tested",
  ["src/simpy/integration.py:Integration.integrate_bounds"])
p("Integer-base logarithms cannot be printed",
  "repr of log(x, b) for every integer b other than 1 raises NotImplementedError, so any sum or product that must compare two such terms cannot be built.",
  "every inner expression and every integer base",
  "no test prints a non-natural log",
  [E+":log._label", E+":Associative._sort_terms"])
p("LaTeX output is balanced",
  "latex() of every expression over symbols with brace-free names yields text whose curly braces, and whose \\left/\\right pairs, are balanced.",
  "all expressions",
  "arbitrary nesting",
  [E+":latex", "src/simpy/latex.py"])
p("Results do not depend on evaluation fuel or caches",
  "Every constructor is a function of its operands: repeated construction gives the same tree (the per-object caches are transparent), for every amount of recursion depth that suffices.",
  "all operands, all recursion budgets",
  "quantifies over all call histories",
  [E+":Expr", E+":_deconstruct_prod", E+":deconstruct_power"])
p("No symbol appears from nowhere",
  "Every expression returned by +, -, *, /, **, abs, Sum([...]), Prod([...]) and Power mentions only symbols that occur in its operands; more generally simplification never invents a symbol.",
  "all operands and all symbol sets",
  "quantifies over every rewriting path of the constructors",
  [E+":Sum", E+":Prod", E+":Power"])
p("Equality by double-precision coincidence never fires without pi, e or logarithms",
  "On operands containing no pi, no e and no logarithm, the float-based == used inside the constructors never identifies two different expressions: the constructors behave exactly as if == were structural identity.",
  "all operands",
  "a float coincidence cannot be excluded by sampling",
  [E+":Num.__eq__", E+":Sum", E+":Prod", E+":Power"])
SI="src/simpy/simplify/simplify.py"
p("simplify preserves the value",
  "simplify(expr), trig_simplify and pythagorean_simplification return an expression with the same value as the input at every assignment where the input and every intermediate power, logarithm and trig value are defined, except for the defects of C44 (base of a log), C55, C56 and C57.",
  "all expressions, all assignments, any recursion budget",
  "the result is produced by an unbounded composition of rewriting passes over the whole tree",
  [SI+":simplify", SI+":trig_simplify", SI+":pythagorean_simplification"])
p("A reported pattern match is a match",
  "When eq(expr, query) succeeds, substituting the reported wildcard values into the query gives an expression with the value of expr; with up_to_sum, query plus rest has the value of expr; every wildcard gets one value. (Except where C56 applies.)",
  "all expressions and all queries with wildcards",
  "quantifies over patterns as well as subjects",
  ["src/simpy/regex.py:eq", "src/simpy/regex.py:Eq", "src/simpy/regex.py:consolidate"])
p("Pythagorean simplification pairs the wrong terms",
  "For products of two squared functions the rule sin^2 + cos^2 = 1 removes the wrong term: cos(b)^2 sin(a)^2 + cos(a)^2 cos(b)^2 (which is cos(b)^2) is simplified to cos(b)^2 sin(a)^2 + cos(b)^2, off by (cos b sin a)^2 at every a, b.",
  "all values of a and b",
  "the suite only pairs single squared functions",
  [SI+":_pythagorean_perform"])
p("The pattern matcher can report wrong matches",
  "eq(x, 2*any*x) reports any = 2 (the inverse of the solution), and eq(x + y, any1 + any2, up_to_sum=True) assigns y to both wildcards and reports the rest x.",
  "all values of the symbols",
  "the reported dictionary looks plausible; only its meaning is wrong",
  ["src/simpy/regex.py:Eq._eq", "src/simpy/regex.py:consolidate"])
p("Product-to-sum drops factors",
  "For three or more factors of which at least two are powers, the plain sin/cos factors are lost: the result for sin(x) cos(y)^2 sin(z)^2 does not mention x. With exactly one power the call raises AssertionError.",
  "all values of the symbols",
  "no test has three factors with powers",
  ["src/simpy/simplify/product_to_sum.py:_product_to_sum_unit"])
p("Sums with even powers of sec and tan cannot be simplified to a sum",
  "On a sum that has an even power of sec and an even power of tan among its terms (up to a numeric factor) the sec/tan rule either collapses the sum to one term or raises (AssertionError, or TypeError from comparing an int with a list); simplify(sec(x)^2 + tan(x)^2) raises AssertionError.",
  "all such sums",
  "an exception on an input class no test exercises",
  [SI+":sectan", SI+":simplify"])
p("simplify without trig functions never makes an expression longer",
  "If the expanded expression has no trig function, simplify returns the argument itself or an expression with strictly fewer symbol occurrences.",
  "all such expressions",
  "a bound over all inputs",
  [SI+":simplify", SI+":is_simpler"])
p("integrate returns an antiderivative","If integrate(f, x) (or Integration().integrate with any option) returns an expression F, then F is defined wherever the search is justified and its derivative with respect to x is f there. The plain code violates this where a step is only valid on part of the domain (e.g. sin(x)*|x| for x < 0).","all integrands, all search orders, any time limit","the result depends on a search over arbitrary compositions of transforms",["src/simpy/integration.py:Integration.integrate","src/simpy/integration.py:integrate"])
p("The search tree is well formed","Every node tree built by the search is a tree: parent and children pointers agree, no child is listed twice; no integrand (except by-parts fillers) repeats an integrand above it up to renaming of the variable; a node of type SOLUTION has a solution.","every search history of any length, for any integrand","an invariant of all reachable trees",["src/simpy/transforms.py:Node","src/simpy/integration.py:Integration._cycle"])
p("integrate answers or gives up, but does not crash","integrate should return an antiderivative or None. It raises for integrands such as cot(x)^2, 1/(x^2(x^2+1)), x^x e^x and e^(ax) sin(bx) and 1/(x^2-2x+1) and 1/(x+1)^2, and returns an infinite expression for ln(x)/(x+1)^2.","all integrands","needs knowledge of which integrands make an internal step fail",["src/simpy/integration.py:Integration.integrate","src/simpy/transforms.py:PartialFractions","src/simpy/transforms.py:ByParts","src/simpy/transforms.py:CompleteTheSquare"])
p("The next node is always an unfinished leaf","As long as the root is unfinished, the breadth-first choice of the next node succeeds and yields an unfinished leaf (unless an unfinished leaf has a bare infinity as integrand: then it may raise TypeError); among the candidates compared at a node it has the least nesting under an OR and the greatest otherwise.","every well-formed search tree","arbitrary trees",["src/simpy/integration.py:_get_best_leaf","src/simpy/integration.py:_get_node_with_best_nesting","src/simpy/integration.py:Integration._get_next_node_post_heuristic_breadth_first"])
p("The search loop never works on a missing node","The depth-first choice takes an unfinished leaf of least nesting below the current node, or the breadth-first choice if that leaf is nested 7 deep or comes from integration by parts. It returns no node only if the root has failed, so the main loop, which stops on a finished root, never dereferences None.","every search history","arbitrary histories of failures",["src/simpy/integration.py:Integration._get_next_node_post_heuristic_depth_first","src/simpy/integration.py:Integration.integrate"])
p("nesting is the length of the longest chain of subexpressions",
  "nesting(e, v) is the largest number of subexpressions nested in each other inside e, each mentioning v (any when v is omitted), where -t counts as t and 1/t inside an expression as t. nesting(inf) and nesting(-inf) raise TypeError.",
  "all expressions and variables",
  "recursion over arbitrary trees with two special cases",
  ["src/simpy/expr.py:nesting", "src/simpy/expr.py:_nesting", "src/simpy/expr.py:__nesting"])
p("Arithmetic of numbers and infinities is that of the extended reals",
  "For rationals and plus or minus infinity, a + b, a - b, a * b, -a and abs(a) give the extended-real result whenever it exists; inf - inf and 0 * inf give no number. An infinity to a natural power k >= 1 is the extended-real power; p**inf for p > 1 and p**(-inf) for 0 < p < 1 are inf, the limits.",
  "all pairs of such numbers",
  "an algebraic law for all rationals",
  ["src/simpy/expr.py:Infinity", "src/simpy/expr.py:NegInfinity", "src/simpy/expr.py:accumulate"])
p("Power of a power is always flattened",
  "If no argument contains a power whose base is itself a power, neither does the result of any operation: the constructors, the operators, sin..., log, abs, diff, subs, expand, factor, replace, log expansion, product-to-sum, trig simplification, simplify and integrate.",
  "all arguments of all public operations, any nesting of calls",
  "an invariant of everything that can be built",
  ["src/simpy/expr.py:Power.__new__", "src/simpy/expr.py:Expr.__pow__", SI+":simplify", "src/simpy/integration.py:Integration.integrate"])
p("An integral mentions only symbols of the integrand",
  "The result of integrate(f, x) mentions only symbols of f and x: no variable introduced by a substitution survives. A definite integral mentions only symbols of f other than x and symbols of the bounds.",
  "all integrands, search orders and time limits",
  "the substitutions nest arbitrarily deep in a search",
  ["src/simpy/integration.py:Integration.integrate", "src/simpy/integration.py:Integration.integrate_bounds", "src/simpy/transforms.py:USub.backward"])
p("Numbers substituted into an expression are computed exactly",
  "Substituting rational numbers for all symbols of an expression made of numbers, symbols, sums, products, absolute values and powers whose exponent becomes an integer returns the exact rational value (never a float, an unevaluated expression or an exception), unless zero is raised to a negative power.",
  "all such expressions and all rational values",
  "exact arithmetic over all rationals and all expression shapes",
  ["src/simpy/expr.py:Sum.subs", "src/simpy/expr.py:Prod.subs", "src/simpy/expr.py:Power.subs", "src/simpy/expr.py:Power.__new__", "src/simpy/expr.py:_accumulate_power"])
p("diff is total and closed on polynomials",
  "For every polynomial in any symbols with natural exponents, diff returns (no exception, no unbounded recursion) a polynomial that is the partial derivative everywhere; for integer exponents it returns a Laurent polynomial that is the derivative where no symbol is zero; for rational exponents, where all symbols are positive.",
  "all polynomials, Laurent polynomials and rational-exponent polynomials, any number of symbols and terms",
  "termination and closure over an infinite family",
  ["src/simpy/expr.py:Sum.diff", "src/simpy/expr.py:Prod.diff", "src/simpy/expr.py:Power.diff", "src/simpy/expr.py:Sum.__new__", "src/simpy/expr.py:Prod.__new__"])
p("expand multiplies polynomials out completely",
  "On sums, products and natural powers of polynomials (nested to any depth; the base of a power being an expanded sum that is not a pure subtraction) expand returns a sum of monomials with the same value everywhere, and expandable says no exactly on sums of monomials. Without the condition on bases it is false: ((x(-x-1) - x^2)^3).expand() is still expandable.",
  "all such expressions",
  "completeness of the multinomial expansion for all degrees and numbers of terms",
  ["src/simpy/expr.py:Prod._expand", "src/simpy/expr.py:Power._expand", "src/simpy/expr.py:Sum._expand", "src/simpy/expr.py:Expr.expandable", "src/simpy/expr.py:Expr.expand"])
p("integrate succeeds and is right on every polynomial",
  "For every polynomial with natural exponents in any symbols, integrate(f, x) returns (no exception, no None, whatever the search order and time limit) a polynomial in the symbols of f and x whose derivative in x is f everywhere.",
  "all polynomials with rational coefficients and natural exponents, any number of symbols, terms and factors; both search orders; every time limit",
  "the search must find the answer on an infinite family of inputs",
  ["src/simpy/integration.py:Integration.integrate", "src/simpy/transforms.py:Additivity", "src/simpy/transforms.py:PullConstant", "src/simpy/integral_table.py:check_integral_table"])
p("subs of monomials into a polynomial is total and closed",
  "Substituting monomials (numbers, symbols, powers, products of them) for symbols of a polynomial returns a polynomial whose value is that of the original at the substituted values; the substitution is simultaneous.",
  "all polynomials and all assignments of monomials to symbols",
  "totality and closure over an infinite family",
  ["src/simpy/expr.py:Sum.subs", "src/simpy/expr.py:Prod.subs", "src/simpy/expr.py:Power.subs", "src/simpy/expr.py:Symbol.subs"])
p("Definite integrals of polynomials are computed",
  "For every polynomial with natural exponents and bounds that are numbers or monomials, integrate(f, (x, a, b)) returns a polynomial equal to the Riemann integral of f from a to b; in one variable with rational bounds it returns the rational number itself.",
  "all polynomials, all rational or monomial bounds in either order",
  "totality over an infinite family, exact arithmetic",
  ["src/simpy/integration.py:Integration.integrate_bounds", "src/simpy/integration.py:Integration.integrate", "src/simpy/simplify/simplify.py:simplify"])
p("The printed text denotes the expression",
  "For every expression in the shape the constructors give it, the text of repr(e), read with the usual precedence (^ right-associative and tightest, then unary minus, then * and / from the left, then + and - from the left; f(...) and |...|), is a formula in exactly one way and that formula has the value of e wherever e is defined; every polynomial (rational exponents) prints and satisfies this. It is false outside that shape: e^(1/x) prints as e^1/x, and sin((x+1)*(y+1)) prints as sin(x + 1)*(y + 1).",
  "all expressions, all values of the symbols",
  "reading back is about every expression tree; a test compares a few strings",
  [E+":Sum.__repr__", E+":Prod.__repr__", E+":Power.__repr__", E+":Rat.__repr__", E+":_repr", E+":Prod.numerator_denominator"])
p("The LaTeX text denotes the expression",
  "For every expression in the shape the constructors give it whose symbols are single letters other than e, the text of e.latex(), read as a LaTeX formula (fractions, roots, exponents and arguments in braces or single characters, \\left and \\right brackets, \\cdot before + and -, \\sin^{-1} the inverse function), is a formula in exactly one way and that formula has the value of the expression wherever it is defined; this includes the expressions that repr misprints (C75). Every polynomial (rational exponents) in such symbols has a LaTeX text and satisfies this. A symbol called e is printed like Euler's number.",
  "all expressions, all values of the symbols",
  "reading back is about every expression tree; a test compares a few strings",
  [E+":Sum.latex", E+":Prod.latex", E+":Power.latex", E+":Rat.latex", E+":TrigFunction.latex", E+":log.latex", "src/simpy/latex.py:bracketfy", "src/simpy/latex.py:group"])
p("Programs over polynomials run to the end and are exact",
  "Every finite program built from rational numbers, symbols, +, -, unary -, *, ** with a natural exponent (products and powers expanded), diff, substitution of monomials, integrate(p, v) and integrate(p, (v, lo, hi)) with monomial bounds, returns an expression (no exception, no loop, no None), the same one for either search strategy, and its value at every point is that of the same program over real functions, diff and integrate being the derivative and the integral of calculus.",
  "all such programs, of any length and nesting, all values of the symbols, both search strategies",
  "ranges over all compositions of the operations; a test runs a few",
  [E+":Sum.__new__", E+":Prod.__new__", E+":Power.__new__", E+":Expr.expand", E+":diff", "src/simpy/integration.py:integrate", E+":Expr.subs"])
p("== decides equality of polynomials",
  "For two such programs, Python's == on the two results is True exactly when the two programs are the same function (for which agreement at the points with positive coordinates is enough); the two results are then the same tree. Without the expansions this is false: 3*(x+1) + y - 2*(x+1) is not == x + y + 1, although neither is expandable().",
  "all pairs of programs",
  "needs a canonical form: quantifies over all pairs of expressions and all points",
  [E+":Expr.__eq__", E+":Sum.__new__", E+":Prod.__new__", E+":Associative._sort_terms", E+":_combine_like_terms_sum"])
p("Algebraic and differential laws hold as == on polynomials",
  "For all polynomial programs a, b, c: the two sides of the ring laws, of the laws of natural powers, of linearity and the product rule of diff, of equality of mixed derivatives, of the fundamental theorem (diff(integrate(a, v), v) == a; integrate(diff(a, v), v) == a - a[v:=0]), of Barrow's rule and of additivity of the integral over adjacent intervals are computed to results that are ==.",
  "all polynomial programs a, b, c, all symbols, all natural exponents, all monomial bounds",
  "laws over all triples of polynomials",
  [E+":Expr.__add__", E+":Expr.__mul__", E+":Expr.__pow__", E+":diff", "src/simpy/integration.py:integrate"])
p("== decides equality of sums of monomials with rational exponents",
  "Every program of sums, differences, negations and derivatives of terms that are products, quotients and integer powers of monomials c * x**p * y**q * ... with rational exponents (roots and reciprocals; no zero denominator) is computed to the end, has the right value wherever all symbols are positive, and == on two results is True exactly when the two programs agree at all such points; so division undoes multiplication and the laws of integer powers are confirmed by ==.",
  "all such programs, all rational exponents, all positive values of the symbols",
  "quantifies over all programs and all points",
  [E+":Expr.__eq__", E+":Sum.__new__", E+":Prod.__new__", E+":Power.__new__", E+":Power.diff"])
p("Using an expression does not change it",
  "Expressions are objects that can be shared. Whatever sequence of constructor calls and method calls follows, an existing object stands for the same expression as before (rule 1 of the file), as long as no sum has a sum among its terms and no product a product, and no constructor re-initialises an existing object; if only the first condition fails, it still has the same value at every point. Outside these conditions the claim fails: flattening rewrites nested operands in place, Prod([p], skip_checks=True) and log(b**log(y), b) make an existing object its own descendant.",
  "all histories of object creations, constructor calls, method calls, all objects alive at any moment, all sharing",
  "quantifies over all histories and all aliasing; a test observes one sequence of calls",
  [E+":Associative._flatten_terms", E+":Associative._flatten", E+":Prod.__init__", E+":Sum.__init__", E+":log.__init__"])
p("Cached answers are never stale",
  "symbols(), nesting, expandable(), expand(), numerator_denominator, get_anys and the other cached methods return after any history what they would compute afresh for the expression, whatever was asked before, in whatever order. Fails for expressions flattened in place.",
  "all histories of calls, all objects, all cached methods",
  "quantifies over all histories of calls",
  [E+":Expr.symbols", E+":nesting", E+":Expr.expand", E+":Expr.expandable", E+":remove_const_factor", E+":_deconstruct_prod", "src/simpy/regex.py:get_anys"])
p("symbols(text) makes exactly the named symbols",
  "For nonempty names without spaces, symbols of the names joined by single spaces returns these symbols in order (a single symbol by itself). Every other text (empty, with a space at an end, with two adjacent spaces) is rejected with AssertionError.",
  "all texts, all lists of names",
  "quantifies over all texts",
  [E+":symbols"])
p("Comparisons of numbers are those of the extended reals",
  "<, <=, >, >= and sign on rationals and infinities agree with the extended real line, Rat(a, b) is a/b in lowest terms, comparing a number with a non-number is False. pi compares as its double.",
  "all rationals, infinities and pairs of integers",
  "quantifies over all numbers",
  [E+":Num.__lt__", E+":Num.__le__", E+":Num.__gt__", E+":Num.__ge__", E+":Num.sign", E+":Rat.__init__"])
p("diff without a variable",
  "diff(e, None) differentiates with respect to the only symbol of e when there is exactly one; otherwise it returns (and does not raise) a ValueError.",
  "all expressions",
  "quantifies over all expressions and points",
  [E+":diff"])
p("evalf gives the numerical value",
  "evalf() of an expression of numbers, sums, products, powers, natural logarithms, sin, cos, tan, arcsin, arccos, arctan and absolute values returns, in exact arithmetic, the value of the expression (equal factors are collected into a power first); whenever it returns, in whatever arithmetic, the result is a float or a natural number. The argument evalf(subs) has no effect: an expression with a symbol always fails, csc, sec and cot always fail, and a logarithm to another base is evaluated as the natural one.",
  "all expressions, all substitutions, all implementations of the floating point operations",
  "quantifies over all expressions and all arithmetics",
  [E+":Expr.evalf", E+":Num._evalf", E+":Associative._evalf", E+":Power._evalf", E+":log._evalf", E+":TrigFunction._evalf", E+":Abs._evalf", E+":Symbol._evalf"])
p("integrate on sums of powers with any rational exponents",
  "integrate(e, v) of a sum of monomials whose symbols carry arbitrary rational exponents (negative and fractional included, v^-1 in particular) returns (no exception, no None) whatever the search order and time limit: the result is a sum of monomials in the same symbols and log|v|, mentions no symbol other than those of e and v, and is an antiderivative of e at all positive values of its symbols; with integer exponents, at all non-zero values.",
  "all sums of monomials with rational exponents, any number of symbols and terms, all values, both search orders, every time limit",
  "quantifies over all such sums and all values of the symbols",
  ["src/simpy/integration.py:integrate","src/simpy/integration.py:Integration.integrate","src/simpy/integration.py:_integrate_safely","src/simpy/transforms.py:Additivity", E+":log", E+":Power.__new__"])
p("diff and arithmetic on trigonometric polynomials",
  "Every program of numbers, symbols, sin(k*s) and cos(k*s) for any integer k, products of monomials, sums, differences, negations and derivatives runs to the end (no exception, no loop) and its result has the right value everywhere. diff of a sum of products of symbols, sin, cos, tan, csc, sec, cot of s, 2s, 3s, .. with integer exponents and log(s) always returns an expression of the same kind, and it is the derivative wherever none of those functions vanishes or is undefined (and, if logarithms occur, the symbols are positive).",
  "all such programs and expressions, any number of symbols, terms and factors, all values of the symbols",
  "quantifies over all such expressions and all values of the symbols",
  [E+":sin", E+":cos", E+":tan", E+":csc", E+":sec", E+":cot", E+":log.diff", E+":TrigFunction.__new__", E+":Sum.__new__", E+":Prod.__new__", E+":Power.diff"])
p("factor on polynomials",
  "For every polynomial sum, factor() returns a monomial times a sum with as many terms: every symbol has in the monomial the smallest of its exponents in the terms (so no symbol is left in all remaining terms), the values are equal, and expand() of the result is the original expression again. The remaining coefficients are integers of which one is 1 or -1 (and the monomial is negative exactly when all coefficients were), except that nothing numeric may be taken out when the coefficients are not all integer multiples of the first one: 6*x**2 + 4*x + 2 is returned unchanged while 6*x**2 + 2*x + 4 becomes 2*(3*x**2 + x + 2).",
  "all polynomial programs whose result is a sum, any number of symbols and terms, any exponents and rational coefficients",
  "quantifies over all polynomials and all values of the symbols",
  [E+":Sum.factor", E+":Expr.__truediv__", E+":Expr.expand", E+":Prod.__new__", E+":Power.__new__"])
p("simplify and integrate on sines and cosines",
  "For every polynomial in v plus a rational combination of sin(v) and cos(v), simplify() succeeds and changes no value, and integrate() with respect to v succeeds, with any search options; the answer is again such an expression, and its derivative is the integrand at every real point.",
  "all sums of any length of rational multiples of 1, v, v^k, sin(v), cos(v), in any order and in the shapes the constructors give; all search bounds, both search orders, with and without final simplification",
  "quantifies over all integrands of the class and all real points; the search tree grows with the number of terms",
  [SI+":simplify", "src/simpy/integration.py:integrate", "src/simpy/integral_table.py:check_integral_table", "src/simpy/transforms.py:Additivity", "src/simpy/transforms.py:PullConstant", "src/simpy/transforms.py:LinearUSub", "src/simpy/transforms.py:Expand"])
p("Coefficients of polynomials",
  "For every polynomial expression in the one symbol v that a polynomial program builds, to_const_polynomial(e, v) returns, without an exception, its rational coefficients, constant term first, with no leading zero ([0] for the zero polynomial), and polynomial_to_expr of that list gives back an expression equal to e. The same list of coefficients comes out of unexpanded products e * f and natural powers e ** k of such expressions.",
  "all polynomial programs (numbers, symbols, +, -, *, natural powers, substitution, differentiation, integration) whose result mentions no symbol but v; all pairs and all natural exponents",
  "quantifies over all polynomials of all degrees; the lists have unbounded length",
  ["src/simpy/polynomial.py:to_const_polynomial", "src/simpy/polynomial.py:polynomial_to_expr", E+":Expr.expand"])

p("The printed result of a computation is the function computed",
  "For every polynomial program, repr of its result is a text that reads back, by the usual rules of arithmetic, to the function the program denotes, and two programs print the same text exactly when they denote the same function. The same holds of latex() when the symbols are single letters other than e.",
  "all polynomial programs (numbers, symbols, +, -, *, natural powers, substitution, differentiation, definite and indefinite integration), all pairs of programs, all values of the symbols",
  "quantifies over all programs and all texts; the 'only if' part needs that no two different functions share a text",
  [E+":Sum.__repr__", E+":Prod.__repr__", E+":Power.__repr__", E+":Expr.latex"])

p("Definite integrals of polynomials plus sines and cosines are computed and right",
  "For every combination with rational coefficients of a number, positive integer powers of v, sin(v) and cos(v), and for all rational numbers a and b in any order, integrate(e, (v, a, b)) succeeds; its answer mentions no variable, is defined, and is the Riemann integral of e from a to b.",
  "all such expressions with any number of terms, coefficients and exponents; all rational bounds a, b (a < b, a = b or a > b; negative, zero or positive)",
  "totality and correctness over all coefficients, exponents and bounds; the bounds include the points where sin and cos rewrite their argument (0 and negative numbers)",
  ["src/simpy/integration.py:Integration.integrate_bounds",E+":sin.__new__",E+":cos.__new__",E+":Sum.__new__",SI+":simplify"])

p("integrate without naming the variable",
  "When exactly one symbol v occurs in e, integrate(e) is integrate(e, v) and integrate(e, (a, b)) is integrate(e, (v, a, b)); when none or several occur, both raise ValueError; and an answer of integrate(e) is always the integral in the one symbol of e. In particular for every polynomial in one symbol integrate(e) is an antiderivative and integrate(e, (a, b)) the number that is the integral from a to b, for all rationals a, b.",
  "all expressions, all bounds, search orders and time limits; all polynomials in one symbol",
  "quantifies over all expressions; the two call styles have to agree on every one of them",
  ["src/simpy/integration.py:integrate",E+":Expr.symbols"])
p("Definite integrals of sums of monomials with negative exponents are computed and right",
  "For every sum of monomials with integer exponents (negative ones included, v^-1 in particular) in v and other symbols, and all rationals a and b of the same sign and not 0, integrate(e, (v, a, b)) succeeds; the answer does not mention v and is the Riemann integral of e from a to b wherever the other symbols are not 0. Proviso: neither |a| nor |b| is the rational number next to e in double precision (whose logarithm the code takes to be 1).",
  "all such sums with any number of terms, symbols and exponents; all rational bounds of one sign; all values of the other symbols",
  "totality and correctness over all coefficients, exponents and bounds; involves logarithms of arbitrary positive rationals",
  ["src/simpy/integration.py:Integration.integrate_bounds",E+":log.__new__",E+":Abs.__new__",E+":Sum.__new__",E+":Power.__new__",SI+":simplify"])

p("simplify and integrate on sines and cosines of linear functions",
  "For every polynomial in v plus a rational combination of sin(a) and cos(a), where each a is a linear function k*v + b of v with rational k (not 0) and b, simplify() succeeds and changes no value, and integrate() with respect to v succeeds, with any search options; the answer is again such an expression, and its derivative is the integrand at every real point. Assumption: the fresh variable names integrate makes up differ from v.",
  "all sums of any length of rational multiples of 1, v, v^k, sin(k v + b), cos(k v + b), with any number of different linear functions, in any order and in the shapes the constructors give; all supplies of fresh names; both search orders, with and without final simplification",
  "quantifies over all integrands of the class, all rational slopes and shifts and all real points; the search tree grows with the number of terms and each term opens a substitution",
  [SI+":simplify", "src/simpy/integration.py:integrate", "src/simpy/transforms.py:LinearUSub", "src/simpy/transforms.py:Additivity", "src/simpy/transforms.py:PullConstant", "src/simpy/integral_table.py:check_integral_table"])

p("Derivatives and definite integrals of sines and cosines of linear functions",
  "For every polynomial in v plus a rational combination of sin(k*v + b) and cos(k*v + b) (rational k, b; k not 0), diff(v) succeeds and is the derivative at every real point; differentiating the answer of integrate() gives an expression equal to the integrand; and for all rationals p and q integrate(e, (v, p, q)) succeeds with an answer that has no symbols and is the Riemann integral from p to q. Assumption: the fresh variable names integrate makes up differ from v.",
  "all such sums with any number of terms and of different linear functions; all rational bounds in any order; both search orders",
  "totality and correctness over all slopes, shifts, coefficients and bounds",
  [E+":Expr.subs", E+":sin.diff", E+":cos.diff", E+":Sum.diff", E+":Prod.diff", "src/simpy/integration.py:Integration.integrate_bounds", "src/simpy/transforms.py:LinearUSub", E+":TrigFunction.__new__"])

p("Substitutions eliminate the variable they replace",
  "When integrate() substitutes a linear function u of v and a new variable for it, the new integrand does not mention v any more (except through the derivative of u), and neither does it when sin(v), cos(v) or tan(v) becomes the new variable or v becomes sin or tan of it; the exception is a linear u when the integrand contains a product c*v**p that would be read as (c'*v)**p. With such a product it may: integrate(sin(x/6)*cos(x**2/36), x) substitutes u = x/6, leaves x**2/36 as it is, then takes it for a constant and returns -6*cos(x/6)*cos(x**2/36), whose derivative is not the integrand (a defect of the code, refuted).",
  "all integrands, variables and new variable names different from the variable",
  "the integrand is arbitrary; the failure needs two particular factors in one integrand",
  ["src/simpy/transforms.py:LinearUSub.check", "src/simpy/transforms.py:LinearUSub.forward", "src/simpy/transforms.py:TrigUSub2", "src/simpy/transforms.py:InverseTrigUSub", "src/simpy/regex.py:replace", "src/simpy/integration.py:integrate"])

# provisos: what a "completed monitored run" (DESIGN.md section 3) means, in words
for i in [11,14,15,19,22,24,25,27,28,29,31,33,34,36,38,42,43,44,45,46,47,54,60,67,68]:
    P[i-1]["statement"]+=" Proviso: every power, logarithm, absolute value and trig value that the code rebuilds on the way is defined at the points considered, and no rational is compared with pi or e on the way."
for i in [1,2,3,23]:
    P[i-1]["statement"]+=" Proviso: pi or e is not compared on the way with the rational that equals its double (C40); this cannot happen when neither occurs."
with open("/verif/properties.jsonl","w") as f:
    for q in P: f.write(json.dumps(q)+"\n")
print(len(P))
