# Formal model of laurgao/simpy in Rocq — design

(DESIGN.md is generated by `tools/gen_design.py` from `tools/design_head.md`, `properties.jsonl` and
`MANIFEST.json`.)

## 1. Approach

simpy is a small computer-algebra system: pure trees (`Expr`) built by *smart constructors*
(`Sum`, `Prod`, `Power`, `log`, trig, `Abs`) and algorithms that only build trees through them
(diff, subs, expand, factor, replace, simplify, integrate).  The model mirrors the functions branch by
branch as Gallina functions over one inductive type `expr` (`Expr.v`); the search tree of the integrator
is a heap of nodes (`Search.v`).

* **Exceptions** are values: `res A = Ok a | Raise exception | Stop reason` (`Base.v`).  `Stop` never
  corresponds to Python behaviour: it says the model gives no answer (`OutOfFuel`: recursion bound too
  small; `Unmodelled`: NaN; `Cycle`: the constructor of log would loop; `Coincidence`, `Domain`: see the
  monitor below).
* **Recursion**: the constructors are mutually recursive (Sum sorts by repr, repr of a product builds
  products and powers, ...), tied with explicit fuel: `build : cfg -> kern -> kern` is not recursive,
  `K c n = build^n bottom`.  Every theorem quantifies over all fuel and speaks about completed runs; C50
  says fuel never changes a completed result.
* **Specification**: independent of the model's helpers.  `Sem.v` gives the real value `ev rho e` of a tree
  and the predicate `wd rho e` "the tree is defined at rho" (no division by 0, no even root or logarithm of a
  negative number, tan/sec/... away from poles, asin/acos on [-1,1]).  Derivatives and integrals are
  Coquelicot's `is_derive` and `is_RInt`; extended reals are Coquelicot's `Rbar`; polynomials, matrices and
  compositions are functions on lists; tree properties are inductive predicates stated in the Props files.

### Plain code and monitored code

`PF c m` (and `K (faithful c) m`) is the code as it is.  Many of simpy's rewriting rules are only valid on
part of the domain (`(x^2)^(1/2)`, `log(a*b)`, `x/x`, ...), and its `==` compares pi and e by their binary64
values.  So "the value is preserved" is *false* for the plain code without a side condition; the
counterexamples are themselves theorems (names ending in `_refuted`, and C04, C07, C20, C48, C55-C58, C62).

The side condition is expressed by running the same code under a **monitor** (`GF dom c n`), which
stops (`Stop Domain`/`Stop Coincidence`) instead of going on when

1. a power, logarithm or trig function is about to be built that the oracle `dom` does not certify as
   defined at the point (or on the box) under consideration (`Funcs.guard`, `gk`, `F`);
2. a rational equal to the binary64 value of pi or e is compared with pi or e (`cfg.strict`);
3. a search step would lose information: a summand dropped by Additivity, a by-parts child dropped, a child
   added to an AND node, a substitution whose range the oracle `rng` does not certify, a cyclic by-parts
   division by a factor containing the variable, ... (each `strictg` in `Trans.v`, `Search.v`).

A soundness theorem then has the form: *if the monitored run completes with result r, then the plain run
completes with the same result r* (proved by monotonicity: `Mono.v`, `FMono.v`, `TransMono.v`,
`SearchMono.v`) *and r is right*.  The oracles are arbitrary functions with the stated correctness
hypothesis (`right_at`, `rng_ok`); `Interval.v` gives a computable oracle for every box of open rational
intervals and proves it right, so `c60_certified` and the examples have no oracle hypothesis left.  The
monitor only ever stops; it never changes a result (that is what the monotonicity theorems say), so it
can be read as the precise side condition "no step of this run leaves the domain".  Where a property holds of the
plain code outright it is stated so (C05, C08-C10, C16-C18, C26, C30, C32, C35, C39, C41, C49-C52, C61, C63-C68,
the `_plain` variants of C01-C03, ...).

Ghost state: `nd_only` (field of a node) is only read by the monitor.

## 2. Properties and theorems

@@TABLE@@

How the main groups are proved:

| ids | how |
|---|---|
| C01-C03, C06, C23 | `Sound k -> Sound (build k)` (Sound.v, SoundPow.v), induction on fuel, against `ev`/`wd` |
| C04, C07, C20, C21, C48, C55-C58, C62 | deviations: explicit (families of) inputs, evaluated in the model, refuted against the specification |
| C08 | insertion sort with a strict total order on printed forms is permutation invariant (Sort.v) |
| C11-C15, C19, C22, C42-C46, C53 | `FSound rho fk`: every library function preserves the value; induction on fuel or on the tree |
| C16, C17 | induction; multinomial theorem over R (Combi.v) |
| C24-C34 | derivative laws, `AntiOn` (antiderivative on a box), polynomial lists with Horner value, linear algebra; C33 total: the shapes of PFrac.v; C30 total: PDiv.v |
| C35, C61, C63, C64 | invariants of all heaps reachable by `grow` (Shape.v), tree induction |
| C36, C47, C60 | invariant `InvT` of the search: every node's solution is an antiderivative of what the node stands for (SearchSound.v) |
| C37-C41, C54 | induction on trees |
| C49 | a stack machine for TeX tokens; all printing functions keep it balanced (Latex.v) |
| C50 | monotonicity of `build` |
| C51, C67, C68 | hereditary predicates through every function (Atoms.v, Her*.v); scope invariant of the search tree (HerSearch.v, Pure.v) |
| C52 | agreement of strict and plain runs on expressions without pi, e, log (Agree.v, Atoms.v) |
| C65, C66 | induction; case analysis |
| C69-C74 | totality: closure of polynomials under every function used (Frag*.v), for any oracle and any monitor, then the soundness theorems |
| C75 | a reader (Read.v, recursive descent) with its grammar; the printer, by induction on fuel, produces phrases of the grammar with the value of the expression (Canon.v, ReadRepr.v) |
| C76 | a LaTeX reader (ReadTex.v: characters and control words, recursive descent) with its grammar; latex() produces phrases of the grammar with the value of the expression (CanonR.v, TexRepr.v); totality on polynomials (PropsN.v) |
| C77-C80 | normal forms of polynomials (NForm.v): closed under the constructors, expand, diff, subs and the search of integrate (NOps.v, NExp.v, NInt.v); unique, by evaluating at exponentials (NUniq.v); division and integer powers of monomials (NInv.v); laws by Coquelicot's calculus (PropsO.v) |
| C81, C82 | store of objects; invariant (acyclic, flat, every cache entry right) preserved by every step of a history; values preserved by in-place flattening |
| C83-C85 | induction on the text; Rbar order; C11 |
| C86 | Evalf, PropsS | induction on the expression; floats abstract, exactness a hypothesis; the real numbers as instance |
| C87 | FragX, FragXLib, PropsT | the sum fragment redone over opaque atoms (symbols, log of an absolute value); run followed step by step, soundness from C60, values restricted to the symbols of the expression by agreement |
| C88 | FragX, PropsU | the class of sums of products of opaque atoms is closed under the constructors and diff; values from C01, C02, C11; sin(k s) normalised by uniqueness of normal forms |
| C89 | NFac, PropsV | inverses and quotients of monomials stay normal; degrees and coefficients read off values; the loop over common factors computes minima; the sum of quotients is a permutation by uniqueness of normal forms |
| C90 | FragG, TrigTot, IntTree, PropsW | Sum/Prod/simplify keep the class (Pythagorean, reciprocal, product-to-sum and fraction rules find nothing); the search tree of IntTree (shared with C72) is solved by Additivity, PullConstant and the table |
| C91 | PolyTot, PropsY | on a normal form in one symbol every term is q, q*v or q*v^k, so to_poly's index-and-add loop completes (induction over the terms); the round trip by uniqueness of normal forms |
| C92 | PropsZ | programs produce normal forms (C77), normal forms are canonical, canonical expressions read back (C75, C76), normal forms are unique |
| C93 | TrigTot, TrigDef | C90's antiderivative, substitution of the bounds term by term (powers, sin and cos of numbers), difference and simplify keep the class with sin(p), cos(p) as extra atoms; value by C47 |
| C94 | Unnamed | the list of symbols has one element; then C72, C74 |
| C95 | PropsT, LogDef | C87's antiderivative; substituting a number into a monomial over symbols and log|v| gives a monomial over symbols and logarithms of numbers (an opaque base class of FragX); value by C47 on the box where v has the sign of a |
| C96 | LinTot, IntTree2, LinInt, LinProps | as C90 with more opaque atoms; the search tree gets LinearUSub nodes (IntTree2: a measure decreases along every step, also through renamed variables), whose integrand in the new variable is solved by the table and substituted back |
| C97 | LinDef | term by term: diff stays in the class of C96; a number put for v lands in the class of C93 (sin and cos of positive numbers), whose difference and simplify lemmas apply; values by C11 and C47 |
| C98 | UsubVar | induction over _check: every subexpression that contains v is u itself (when nothing is rescaled), so replace() removes it; for trig substitutions by comparing the two counts the check compares; the leftover is computed by the kernel and its derivative at 1 compared |

## 3. Trusted base

* The Coq 8.16.1 kernel (including its `vm_compute` for examples and refutations).  No plugin, no disabled check,
  no axiom of our own, no `Admitted`, no functor, no module type.
* Axioms (all from the standard library, shown by `Print Assumptions`): the real numbers
  (`ClassicalDedekindReals.sig_forall_dec`, `ClassicalDedekindReals.sig_not_dec`),
  `FunctionalExtensionality.functional_extensionality_dep`, and `Classical_Prop.classic` (Coquelicot and the
  decidability of "defined at rho").  `vcheck` also lists the sealed constants of
  `Reals.Rdefinitions` (`RbaseSymbolsImpl.*`, `RinvImpl.*`) and of `ssr.ssrunder.Under_rel`: these are opaque module
  fields with implementations, not axioms.  Section 7 lists `Print Assumptions` for every theorem.
* Libraries: Coquelicot (derivatives, integrals, extended reals) and through it mathcomp's ssreflect.
* The reading of /repo as text: each definition cites file and lines.  `Conform.v` (generated by
  `tools/gen_conform.py` from `tools/conform_cases.py`) evaluates the expectations of the project's own tests in
  the model; these are tests of the model's fidelity, not proofs.
* `fpow_exact`: the one assumption about floating point, a hypothesis of the theorems that need it.
  `Rat ** Rat` is computed in Python as `int ** float` and accepted if the result is an integer; `fpow a x` stands for
  that computation and `fpow_exact` says an accepted integer is the exact root.  `Oracle.v` proves
  that the exact-root oracle `fpow_exact_oracle` meets it and that rounding to 53 bits does not (C07).

## 4. Modelled and not modelled

Modelled, branch by branch (file → model):

| /repo/src/simpy | model |
|---|---|
| expr.py: Rat, Pi, E, Infinity, NegInfinity, Symbol, Sum, Prod, Power, Abs, log, sqrt, trig classes (`__new__`, operators, repr, `_sort_terms`, `_combine_like_terms*`, accumulate, deconstruct_power, ...) | Expr, Kernel, Funcs, Numbers |
| expr.py: subs, diff | Calc |
| expr.py: expandable, expand, numerator_denominator | Expand |
| expr.py: Sum.factor | Factor |
| expr.py: latex methods; latex.py | Latex |
| expr.py: nesting, contains, has, symbols, remove_const_factor, is_subtraction, `_is_strictly_positive` | Expr, Search, Poly |
| combinatorics.py | Combi |
| regex.py: replace_*, count, contains_cls, eq (matcher with wildcards), get_anys | Regex, Match |
| utils.py: eq_with_var, count_symbols | Regex |
| simplify/simplify.py | Simp, TrigSimp |
| simplify/product_to_sum.py | Pts |
| polynomial.py, linalg.py | Poly, PolyQ |
| integral_table.py | Table |
| transforms.py: all transforms (check, forward, backward), Node | Trans, Search |
| expr.py: object identity, in-place flattening, caches | Objects |
| expr.py: symbols, diff, comparisons | Api |
| expr.py: evalf | Evalf |
| integration.py: Integration.integrate, integrate, integrate_bounds, the depth-first and breadth-first choices, go_backwards | Search |

Not modelled, and why:

* Binary64 arithmetic: no `Float` occurs in the model of the constructors (inputs are exact); `evalf` is modelled over an
  arbitrary arithmetic (Evalf.v).  In the constructors a NaN result (inf - inf, 0*inf) is `Stop Unmodelled`.
  Consequently `_cast` of Python floats is not modelled.
* In the value-level model (all files but Objects.v ... PropsQ.v) expressions are immutable and have no caches.  Objects.v
  models the store of Python objects, the three places that change an object in place, and the caches; C81 and C82 prove
  that for tame histories the two views agree, and show what happens otherwise.  There, answers of cached methods are
  stored as values, not as references.  `special_values` (a class-level cache of constants) is not in the store model.
* `OverflowError` when a huge rational is raised to a fractional power (Python converts it to a double).
* The wall clock of `integrate`: replaced by the number `k` of further rounds, universally quantified.
* Random names: `random_id` for wildcards and the names of new variables (`nm`) are parameters.
* `debug/` (logging, tree printing, interactive selection), `Node.root`, `Node.distance_from_root`, `Node.is_stale`,
  `Expr.__mod__`/`__floordiv__` beyond Rat, the `benchmark/` folder.
* Python set order in `symbols()`: the model uses first-occurrence order; nothing proved depends on it (`integrate`
  only uses it when there is exactly one symbol).
* Environment: the dataclass default `base: Expr = e` of `log` makes the module fail to import on Python ≥ 3.11; the
  model describes the behaviour on ≤ 3.10.  Ragged `np.array` (PartialFractions) raises ValueError, as in NumPy ≥ 1.24.

Simplifications are stated in the comment of each definition.

## 5. Partial and conditional results

No property has status partial.  Points where the English property is stronger than what holds of the code are
split into a proved positive theorem and a `_refuted` theorem that exhibits the violation (see MANIFEST notes).
C68 and C67's integrate half are proved for monitored runs; for the plain code the same proof (`integrate_scope`,
HerSearch.v) gives the conclusion for every run whose final tree has no node with both an Additivity child and a
substitution child.

## 6. Testing the theorems

`seeded/LOG.jsonl`: one line per wrong program tried (definition edited, edit, claim broken, theorems that
failed, theorems tightened).  The harness copies the development, applies one edit to the model, rebuilds with every
failing lemma replaced by an assumption, and reports which property theorems fail or come to depend on a failed
lemma.

## 7. Print Assumptions of each theorem

(Generated by `tools/gen_assumptions.py`.)

@@ASSUM@@
