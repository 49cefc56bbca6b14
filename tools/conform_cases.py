# /repo/tests/test_exprs.py
grp("test_exprs_defaults")
strict(Sum(), 0); strict(Prod(), 1)
strict(x + 2, 2 + x); strict(x * y, y * x)
strict(x * 0, 0); strict(x * 2, 2 * x); strict(x**2, x * x); strict(x * 2 - 2 * x, 0)
strict((x + 1) ** 2 - (x + 1) * (x + 1), 0)
strict(x + x, 2 * x); strict(x + x + x, 3 * x)
strict(3 * (x + 2) + 2 * (x + 2), 5 * (x + 2))
strict(2 * x * y + 3 * x * y, 5 * x * y)
strict(3 * x - 2 * x, x)
strict(x**3, x * x * x)
strict((2 * sin(x) * cos(x) ** 2) / (sin(x) * cos(x) ** 2), 2)
strict(x**0, 1); strict(x**1, x); strict(Rat(2) ** 2, 4); strict(sqrt(4), 2)
strict(sqrt(x) ** 2, x); strict(2 / sqrt(2), sqrt(2))
boolean("Expandable", x / (x + 2), False)
boolean("Expandable", (x + 2) / x, True)
boolean("Expandable", log(x * (x + 2)), True)
boolean("Expandable", log(x * (x + 2)) * 3, True)
boolean("Expandable", y / (x * (x + 6)), True)
strict(expand(1 / (x * (x + 6))), 1 / (x**2 + x * 6))
strict(expand(y / (x * (x + 6))), y / (x**2 + x * 6))
strict(expand((2 + x) / sin(x)), (2 / sin(x) + x / sin(x)))
boolean("Expandable", (cos(2 * x) + 1) ** 2 - 8 / (3 * (cos(2 * x) + 1) ** 3) + 2 / (cos(2 * x) + 1) ** -4, True)
strict(x + (2 + y), x + 2 + y)
add(f"Count {cv(2)} \"x\" 0"); add(f"Count {cv(tan(x + 1) ** 2 - 2 * x)} \"x\" 2")
add(f"Nest {cv(x**2)} \"x\" 2"); add(f"Nest {cv(x * y**2)} \"x\" 2"); add(f"Nest {cv(x * (1 / y**2 * 3))} \"x\" 2")
grp("test_exprs_repr")
rep(1 - x**2, "-x^2 + 1"); rep(x - 2, "x - 2"); rep(2 * x, "2*x"); rep(2 * (2 + x), "2*(x + 2)")
rep(2 / (2 + x), "2/(x + 2)"); rep(2 * (2 + x) ** (-2), "2/(x + 2)^2"); rep(2 / (2 + x) ** 2, "2/(x + 2)^2")
rep(Rat(-1) ** F(1, 4), "(-1)^(1/4)"); rep(sqrt(3), "sqrt(3)"); rep(1 / sqrt(1 - x**2), "1/sqrt(-x^2 + 1)")
rep(sqrt(1 / x), "1/sqrt(x)"); rep(x ** -F(1, 2), "1/sqrt(x)")
rep(sin(x) / (2 * x), "sin(x)/(2*x)"); rep(x / 2, "x/2"); rep(x * F(1, 2), "x/2"); rep(3 - 2 * x, "-2*x + 3")
rep(3 * x**4 / 2 + x**5 + 2 * x + 3 - x**2, "x^5 + 3*x^4/2 - x^2 + 2*x + 3")
rep(2 + log(2), "ln(2) + 2"); rep(log(4) + Rat(9, 16) - log(2), "-ln(2) + ln(4) + 9/16")
rep(Rat(2, 3) ** Rat(2, 3) * -1, "-(2/3)^(2/3)"); rep(pi * 2, "2*pi"); rep(pi * -2, "-2*pi")
grp("test_exprs_factor")
strict(factor(6 * x + x**2), x * (x + 6))
c3, r3, c4, r4, a, b = map(sym, "c_3 r_3 c_4 r_4 a b".split())
strict(factor(c3 * r3 / (sqrt(a) * sqrt(b)) - c3**2 * r3**2 / (c4 * r4 * sqrt(b) * a ** F(3, 2)) - c4 * r4 / (sqrt(a) * b ** F(3, 2))),
       1 / (sqrt(a) * sqrt(b)) * (c3 * r3 - c3**2 * r3**2 / (c4 * r4 * a) - c4 * r4 / b))
strict(factor(2 - 2 * x), 2 * (1 - x))
grp("test_exprs_power")
half, neg_half = Rat(1, 2), Rat(-1, 2)
strict(Power(Rat(3, 4), half), Prod(Power(3, half), half))
strict(Power(Rat(4, 3), half), Prod(Rat(2), Power(3, neg_half)))
strict(Power(Rat(3, 4), neg_half), Prod(Power(3, neg_half), Rat(2)))
strict(Power(Rat(4, 3), neg_half), Prod(half, Power(3, half)))
strict(Power(Rat(-8, 3), F(1, 3)), Prod(Rat(-2), Power(3, F(-1, 3))))
strict(Power(Rat(-8, 3), F(-1, 3)), Prod(neg_half, Power(3, F(1, 3))))
strict(Power(Rat(1, 36), neg_half), 6); strict(Power(36, neg_half), F(1, 6)); strict(Power(36, half), 6)
strict(Power(Rat(1, 36), half), F(1, 6))
strict(Power(Power(2, half), -1), Power(2, neg_half))
strict(Rat(5, 3)**half, Rat(3, 5)**neg_half); strict(Rat(3, 5)**half, Rat(5, 3)**neg_half)
rep(Power(half, neg_half), "sqrt(2)"); strict(Power(half, neg_half), Power(2, half))
rep(Power(half, Rat(-1, 7)), "2^(1/7)"); rep(Power(Rat(1, 7), Rat(-1, 7)), "7^(1/7)")
rep(Power(Rat(1, 3), Rat(1, 7)), "1/3^(1/7)"); rep(Power(3, Rat(-1, 7)), "1/3^(1/7)")
strict(Power(Rat(1, 3), Rat(1, 7)), Power(3, Rat(-1, 7)))
grp("test_exprs_special")
strict(log(1), 0); strict(log(e**x), x); strict(sin(3 * pi), 0); strict(cos(5 * pi), -1)
strict(csc(pi / 2), 1); strict(cot(pi / 4), 1); strict(cos(-x), cos(x)); strict(sin(-x), -sin(x)); strict(tan(-x), -tan(x))
strict(sin(acos(x + y)), sqrt(1 - (x + y) ** 2)); strict(csc(acos(x + y)), 1 / sqrt(1 - (x + y) ** 2))
strict(sec(acos(x + y)), 1 / (x + y)); strict(atan(cot(3 * x + 2)), 1 / (3 * x + 2))
strict(cos(x + 2 * pi), cos(x)); strict(sin(x + e**y + 4 * pi), sin(x + e**y)); strict(tan(x + pi), tan(x))
strict(cos(-x - 2), cos(x + 2))
for t, v in [(x, 0), (-x, 1), (Rat(0), 0), (Rat(-2), 1), (e**x, 0), (-(e**-x), 1), (Rat(-3) ** 3, 1), (Rat(-3, 2) ** F(1, 3), 1),
             (Rat(-3, 2) ** F(-2, 3), 1), (Rat(-3, 2) ** F(1, 2), 0)]: boolean("IsSub", t, v)
strict(sqrt(x**2), abs(x)); strict((x**6) ** Rat(1, 6), abs(x)); strict((x**3) ** Rat(1, 3), x)
grp("test_expand_power")
strict(expand((x**3 + 1) ** 6), expand(Prod(*[Sum(x**3, 1)] * 6)))
grp("test_derivatives")
value(diff(2**x), log(2) * 2**x); value(diff(x**7), 7 * x**6); value(diff(log(x)), 1 / x)
def d_(a, b, c): strict(subs(diff(a), {"x": b}), c)
d_(cot(x), 5 * pi / 3, F(-4, 3)); d_(sec(x), 0, 0); d_(tan(x), 2 * pi / 3, 4); d_(sec(x), 11 * pi / 6, -F(2, 3))
d_(csc(x), pi / 2, 0); d_(csc(x), 3 * pi / 4, sqrt(2))
value(diff(-4 * e**x - sin(x) - 9), -4 * e**x - cos(x)); value(diff(-4 * x**3 - sin(x)), -cos(x) - 12 * x**2)
value(diff(sqrt(x) * e**x), e**x / (2 * sqrt(x)) + sqrt(x) * e**x)
value(diff(cos(x) / log(x)), (-x * sin(x) * log(x) - cos(x)) / (x * log(x) ** 2))
value(diff(sin(x) / e**x), (cos(x) - sin(x)) / e**x); value(diff(sec(y**3 * pi) / 4), 0)
grp("test_nums")
strict(inf**1, inf); strict(inf, inf + 1); strict(sqrt(inf), inf); strict(inf, 2 * inf); strict(-inf, -inf - 1); strict(-inf, -2 * inf)
grp("test_pts")
strict(ptsu(sin(x) ** 3), 3 * sin(x) / 4 - sin(3 * x) / 4)
strict(ptsu(cos(x) ** 5), cos(5 * x) / 16 + 5 * cos(3 * x) / 16 + 5 * cos(x) / 8)
strict(ptsu(sin(x) * cos(x) * sin(2 * x)), sin(x) ** 2 / 2 + sin(3 * x) * sin(x) / 2)
strict(ptsu(sin(x) ** 3 * cos(x)), sin(2 * x) / 4 - sin(4 * x) / 8)
strict(ptsu(sin(x) ** 3 * cos(x) ** 2), sin(x) / 8 + sin(3 * x) / 16 - sin(5 * x) / 16)
grp("test_trig_simplify")
for p, q in [(1 / sin(x), csc(x)), (1 / cos(x), sec(x)), (sin(x) / cos(x), tan(x)), (2 * sin(x) / cos(x), 2 * tan(x)),
             (-sin(x) / cos(x), -tan(x)), (2 / sin(x), 2 * csc(x)), (-1 / sin(x), -csc(x)),
             (sin(x) ** 2 + cos(x) ** 2 + 3, 4),
             (sin(x - 2 * y) ** 2 + 3 + cos(x - 2 * y) ** 2 + y**2 + cos(x), 4 + y**2 + cos(x)),
             (2 * y * sin(x**3) ** 2 + 2 * y * cos(x**3) ** 2, 2 * y),
             (sin(x) ** 2 - 5 * cos(x) ** 2 - 1, -6 * cos(x) ** 2),
             (1 + tan(x + y) ** 2, sec(x + y) ** 2), (2 + 2 * tan(x + y) ** 2, 2 * sec(x + y) ** 2),
             (1 - sin(x) ** 2 + x, x + cos(x) ** 2),
             (2 * cos(x) * sin(2 * x) / 3 - sin(x) * cos(2 * x) / 3, sin(3 * x) / 6 + sin(x) / 2),
             (sin(x) / cos(x) - csc(x) / cos(x), -cot(x))]: strict(simplify(p), q)
plusc(1 / (4 * cos(x) ** 4) - 1 / (3 * cos(x) ** 6) + 1 / (8 * cos(x) ** 8), tan(x) ** 6 / 6 + tan(x) ** 8 / 8)
value(sin(x) * cos(4 * x) / 120 + sin(x) * cos(2 * x) / 12 - cos(x) * sin(4 * x) / 30 - cos(x) * sin(2 * x) / 6 - sin(x) ** 3 / 6 + 3 * sin(x) / 8,
      sin(x) ** 3 / 3 - sin(x) ** 5 / 5)
value(sin(2 * x) ** 3 / 48 + 3 * sin(4 * x) / 64 - sin(2 * x) / 4 + 5 * x / 16, (9 * sin(4 * x) - sin(6 * x) - 45 * sin(2 * x) + 60 * x) / 192)
# /repo/tests/test_integrals.py
grp("test_integrals_basic")
assert_definite(2, ("x", 5, 3), -4)
assert_integral(x ** F(7, 3), F(3, 10) * x ** F(10, 3)); assert_integral(3 * x**2 - 2 * x, x**3 - x**2)
assert_integral((x + 1) ** 2, x + x**2 + (x**3 / 3)); assert_integral(x**12, x**13 / 13); assert_integral(1 / x, log(abs(x)))
assert_definite(1 / x, ("x", 1, 2), log(2)); assert_integral(y, x * y, "x"); assert_integral(tan(y), x * tan(y), "x")
strict(integ((x / 90 * (x - 5) ** 2 / 350), ("x", 5, 6)), F(23, 378000))
strict(integ((F(1, 15) - F(1, 360) * (x - 6)) * (x - 5) ** 2 / 350, ("x", 6, 15)), F(2589, 56000))
strict(integ((F(1, 15) - F(1, 360) * (x - 6)) * (1 - (40 - x) ** 2 / 875), ("x", 15, 30)), F(37, 224))
grp("test_integrals_lecture")
assert_integral(-5 * x**4 / (1 - x**2) ** F(5, 2), -5 * (-(x / (sqrt(1 - x**2))) + (F(1, 3) * x**3 / (1 - x**2) ** F(3, 2)) + asin(x)))
grp("test_integrals_more")
assert_integral(x**2 / sqrt(1 - x**3), -2 * sqrt(1 - x**3) / 3)
w, phi, t = map(sym, ["w", "\\phi", "t"])
plusc(1 / (2 * pi / w) * integ(cos(w * t - phi) * cos(w * t), ("t", 0, 2 * pi / w)), cos(phi) / 2)
assert_integral(sin(x) ** 2, x / 2 - sin(2 * x) / 4); assert_integral(cos(x) ** 2, sin(2 * x) / 4 + x / 2)
add(f"Any [Strict {integ(sin(2 * x) / cos(2 * x)).c} {cv(-log(abs(cos(2 * x))) / 2)}; Strict {integ(sin(2 * x) / cos(2 * x)).c} {cv(log(abs(sec(2 * x))) / 2)}]")
plusc(integ(sin(w * t) * cos(w * t), "t"), sin(w * t) ** 2 / (2 * w), "t")
strict(diff(x * log(x) - x), log(x)); assert_integral(log(x), x * log(x) - x)
assert_integral(log(x + 6) / x**2, log(abs(x)) / 6 - log(x + 6) / x - log(abs(x + 6)) / 6)
add(f"Unsolved {cv(sqrt(x**2 + 11))} \"x\"")
assert_integral(cos(x) * cos(2 * x), sin(3 * x) / 6 + sin(x) / 2)
assert_integral(1 / sqrt(-(x**2) + 10 * x + 11), asin((x - 5) / 6))
th = sym("theta")
def polar(r, a, b): return integ(r**2, ("theta", a, b)) / 2
value(polar(3 * sin(th), pi / 6, 5 * pi / 6) - polar(1 + sin(th), pi / 6, 5 * pi / 6), pi)
assert_integral(sin(x) * cos(2 * x) * sin(2 * x), 2 * sin(x) ** 3 / 3 - 4 * sin(x) ** 5 / 5)
grp("test_khan_1")
plusc(integ(6 * e**x, ("x", 6, 12)), 6 * e**12 - 6 * e**6)
plusc(integ(x * cos(x), ("x", 3 * pi / 2, pi)), 3 * pi / 2 - 1)
assert_integral((x + 8) / (x * (x + 6)), F(4, 3) * log(abs(x)) - F(1, 3) * log(abs(x + 6)))
assert_integral((18 - 12 * x) / (4 * x - 1) / (x - 4), -log(abs(4 * x - 1)) - 2 * log(abs(x - 4)))
assert_integral((2 * x + 3) / (x - 3) / (x + 3), 3 * log(abs(x - 3)) / 2 + log(abs(x + 3)) / 2)
assert_integral((x - 2) / (2 * x + 1) / (x + 3), -log(abs(2 * x + 1)) / 2 + log(abs(x + 3)))
assert_integral(x * e ** (-x), -(e ** (-x)) * (x + 1)); assert_integral(log(x) / x**2, -log(x) / x - 1 / x)
strict(integ(x * sqrt(x - y), ("x", 0, y)), F(4, 15) * (-y) ** F(5, 2))
assert_definite(x * e ** (4 * x), (0, 2), F(7, 16) * e**8 + F(1, 16))
assert_definite(-x * cos(x), (pi / 2, pi), 1 + pi / 2)
assert_integral(e**x * sin(x), e**x / 2 * (sin(x) - cos(x)))
assert_integral(x**2 * sin(pi * x), -(x**2) * cos(pi * x) / pi + 2 * x * sin(pi * x) / pi**2 + 2 * cos(pi * x) / pi**3)
plusc(integ(asin(x), "x"), x * asin(x) + sqrt(1 - x**2)); plusc(integ(acos(x), "x"), x * acos(x) - sqrt(1 - x**2))
plusc(integ(atan(x), "x"), x * atan(x) - log(abs(1 + x**2)) / 2)
grp("test_khan_2")
strict(integ(sec(2 * x) * tan(2 * x), ("x", 0, pi / 6)), F(1, 2))
assert_integral(4 * sec(x) ** 2, 4 * tan(x)); assert_integral(sec(x) ** 2 * tan(x) ** 2, tan(x) ** 3 / 3)
assert_integral(5 / x - 3 * e**x, 5 * log(abs(x)) - 3 * e**x); assert_integral(sec(x), log(sec(x) + tan(x)))
assert_integral(2 * cos(2 * x - 5), sin(2 * x - 5)); assert_integral(3 * x**5 - x**3 + 6, 6 * x - x**4 / 4 + x**6 / 2)
assert_integral(x**3 * e ** (x**4), (e ** (x**4) / 4))
assert_definite(e**x / (1 + e**x), (log(2), log(8)), log(9) - log(3))
assert_definite(8 * x / sqrt(1 - 4 * x**2), (0, F(1, 4)), 2 - sqrt(3)); assert_definite(sin(4 * x), (0, pi / 4), F(1, 2))
assert_integral(5 * csc(x) ** 2, -5 * cot(x)); assert_integral(2 * csc(x) * cot(x), -2 * csc(x))
grp("test_khan_3")
assert_integral((2 * x - 5) ** 10, (2 * x - 5) ** 11 / 22); assert_integral(3 * x**2 * (x**3 + 1) ** 6, (1 + x**3) ** 7 / 7)
assert_integral((x - 5) / (-2 * x + 2), -x / 2 + 2 * log(abs(1 - x)))
assert_integral((x**3 - 1) / (x + 2), x**3 / 3 - x**2 + 4 * x - 9 * log(abs(2 + x)))
assert_integral((x - 1) / (2 * x + 4), x / 2 - F(3, 2) * log(abs(x + 2)))
assert_integral(1 / (3 * x**2 + 6 * x + 78), atan((1 + x) / 5) / 15); assert_integral(1 / (x**2 - 8 * x + 65), atan((-4 + x) / 7) / 7)
assert_integral(1 / sqrt(-(x**2) - 6 * x + 40), asin((3 + x) / 7))
strict(integ(-(e**x), (-inf, 1)), -e); strict(integ(e ** (-x), (0, inf)), 1)
grp("test_khan_4")
assert_integral(sin(x) ** 4, (sin(4 * x) - 8 * sin(2 * x) + 12 * x) / 32)
assert_integral(sin(x) ** 6, (sin(2 * x) ** 3 / 48 + 3 * sin(4 * x) / 64 - sin(2 * x) / 4 + 5 * x / 16, (9 * sin(4 * x) - sin(6 * x) - 45 * sin(2 * x) + 60 * x) / 192))
assert_integral(sin(x) ** 2 * cos(x) ** 3, sin(x) ** 3 / 3 - sin(x) ** 5 / 5)
assert_integral(sin(x) ** 3, cos(x) ** 3 / 3 - cos(x)); assert_integral(cos(x) ** 5, sin(x) ** 5 / 5 - 2 * sin(x) ** 3 / 3 + sin(x))
value(integ(tan(x) ** 4, (0, pi / 4)), pi / 4 - F(2, 3))
assert_integral(tan(x) ** 5 * sec(x) ** 4, tan(x) ** 6 / 6 + tan(x) ** 8 / 8)
# /repo/tests/test_transforms.py, test_regex.py
grp("test_transforms")
def tr(f, a): return T(f"(Tr {f} {cv(a)})")
strict(tr("t_pull", 2 * x**3), x**3)
strict(tr("t_poly", 6 * x + x**2), y**2 + 6 * y)
strict(tr("t_polydiv", x**4 * (1 + x**2) ** -1), x**2 - 1 + 1 / (1 + x**2))
strict(tr("t_cts", -(x**2) + 10 * x + 11), 36 * (-((x - 5) ** 2) / 36 + 1))
strict(tr("(t_rest Sin (-1) 1)", -sin(x) ** 2 - 5 ** cos(x) ** 2 + 1), -(5 ** cos(x) ** 2))
strict(tr("(t_match Sin (-1) 1)", -sin(x) ** 2 - 5 ** cos(x) ** 2 + 1), x)
strict(tr("(t_match Tan 1 1)", tan(2 * x + y) ** 2 + 1), 2 * x + y)
# /repo/tests/test_latex.py
grp("test_latex")
lat(Rat(1, 2), "\\frac12"); add(f'LtxExact {cv(x / 2)} "\\frac x2"'); lat((x + 2) / 3, "\\frac{x+2}3")
lat(x**2, "x^2"); lat((2 + x) ** (log(x)), "(x+2)^{\\ln(x)}")
lat(x ** (y + 3), "x^{y+3}"); lat((2 + x) ** y, "(x+2)^y"); lat(x ** (-3), "x^{-3}"); lat(x ** (-e), "x^{-e}")
lat((x - 5) / 2, "\\frac{x - 5}2")
lat(sec(2 * x), "\\sec(2 \\cdot x)"); lat(atan(x), "\\tan^{-1}(x)")
lat(2 * log(abs(1 - x)) - x / 2, "2 \\cdot \\ln (| -x + 1 |) - \\frac x2")
lat(-log(abs(x**2 + 1)) / 2 + x * atan(x), "-\\frac{\\ln \\left( \\left| x^2 + 1 \\right| \\right)}2 + x \\cdot \\tan^{-1} (x)")
lat(tan((2 + x) / (x + 3)), "\\tan \\left(\\frac{x + 2}{x + 3} \\right)")
