#!/usr/bin/env python3
"""Transcribes expectations of /repo/tests (as text, nothing of /repo is executed) into
rocq/theories/Conform.v: evaluations of the Coq model that check it against the project's own
expected results.  These are tests of the model, not proofs."""
from fractions import Fraction
import sys

class T:
    def __init__(s, c): s.c = c
    def __add__(a, b): return T(f"(A {a.c} {cv(b)})")
    def __radd__(a, b): return T(f"(A {cv(b)} {a.c})")
    def __sub__(a, b): return T(f"(S {a.c} {cv(b)})")
    def __rsub__(a, b): return T(f"(S {cv(b)} {a.c})")
    def __mul__(a, b): return T(f"(M {a.c} {cv(b)})")
    def __rmul__(a, b): return T(f"(M {cv(b)} {a.c})")
    def __truediv__(a, b): return T(f"(D {a.c} {cv(b)})")
    def __rtruediv__(a, b): return T(f"(D {cv(b)} {a.c})")
    def __pow__(a, b): return T(f"(P {a.c} {cv(b)})")
    def __rpow__(a, b): return T(f"(P {cv(b)} {a.c})")
    def __neg__(a): return T(f"(Ng {a.c})")
    def __abs__(a): return T(f"(Ab {a.c})")
def cv(b):
    if isinstance(b, T): return b.c
    b = Fraction(b)
    return f"(N ({b.numerator}) {b.denominator})"
def fn(name):
    return lambda a: T(f"(T {name} {cv(a)})")
sin, cos, tan, csc, sec, cot = map(fn, "Sin Cos Tan Csc Sec Cot".split())
asin, acos, atan = map(fn, "Asin Acos Atan".split())
def log(a): return T(f"(L {cv(a)})")
def sqrt(a): return T(f"(P {cv(a)} (N 1 2))")
def sym(n): return T(f'(V "{n}")')
def Rat(a, b=1): return T(cv(Fraction(a, b) if not isinstance(a, Fraction) else a))
def Sum(*l): return T("(SumL [" + ";".join(cv(t) for t in l) + "])")
def Prod(*l): return T("(ProdL [" + ";".join(cv(t) for t in l) + "])")
def Power(a, b): return T(f"(Pw {cv(a)} {cv(b)})")
pi, e, inf = T("(K EPi)"), T("(K EE)"), T("(K EInf)")
x, y = sym("x"), sym("y")
F = Fraction
OUT = []   # (group, coq check)
GRP = [None]
def grp(n): GRP[0] = n
def add(c): OUT.append((GRP[0], c))

def strict(a, b): add(f"Strict {cv(a)} {cv(b)}")
def value(a, b): add(f"Value {cv(a)} {cv(b)}")
def plusc(a, b, *vs): add(f"PlusC {cv(a)} {cv(b)} [{';'.join(chr(34)+v+chr(34) for v in vs)}]")
def rep(a, s): add(f'Repr {cv(a)} "{s}"')
def lat(a, s): add(f'Ltx {cv(a)} "{s}"')
def simplify(a): return T(f"(Sim {cv(a)})")
def expand(a): return T(f"(Exp {cv(a)})")
def factor(a): return T(f"(Fac {cv(a)})")
def diff(a, v="x"): return T(f'(Df {cv(a)} "{v}")')
def subs(a, m): return T(f"(Sb {cv(a)} [" + ";".join(f'("{k}", {cv(v)})' for k, v in m.items()) + "])")
def ptsu(a): return T(f"(Pts {cv(a)})")
def integ(a, b=None):
    if b is None: return T(f"(I {cv(a)} TNone)")
    if isinstance(b, str): return T(f'(I {cv(a)} (TVar "{b}"))')
    if len(b) == 2: return T(f"(I {cv(a)} (TPair {cv(b[0])} {cv(b[1])}))")
    return T(f'(I {cv(a)} (TTriple "{b[0]}" {cv(b[1])} {cv(b[2])}))')
def assert_integral(a, b, var=None):
    if isinstance(b, tuple): add("Any [" + "; ".join(f"PlusC {integ(a, var).c} {cv(t)} []" for t in b) + "]")
    else: plusc(integ(a, var), b)
def assert_definite(a, bd, b): strict(integ(a, bd), b)
def boolean(which, a, v): add(f"{which} {cv(a)} {'true' if v else 'false'}")

exec(open(__file__.replace("gen_conform.py", "conform_cases.py")).read())

def main():
    groups = {}
    for g, c in OUT: groups.setdefault(g, []).append(c)
    mode = sys.argv[1] if len(sys.argv) > 1 else "eval"
    if mode == "eval":
        only = sys.argv[2:]
        print("From Coq Require Import List String ZArith QArith.\nFrom Verif Require Import Expr ConformDefs.\nImport ListNotations. Open Scope string_scope. Open Scope list_scope. Open Scope Z_scope.")
        for g, cs in groups.items():
            if only and g not in only: continue
            for i, c in enumerate(cs):
                print(f'Definition {g}_{i} := ({c}).\nTime Eval vm_compute in ("{g}_{i}", run {g}_{i}).')
    else:
        print(HEAD)
        for g, cs in groups.items():
            print(f"Definition {g} : list chk := [\n  " + ";\n  ".join(cs) + "].")
            print(f"Example {g}_ok : forallb passes {g} = true.\nProof. vm_compute. reflexivity. Qed.\n")
HEAD = """(** * Conform: GENERATED by tools/gen_conform.py -- do not edit.
    Expectations of the project's own tests (/repo/tests), evaluated in the plain model.  These are
    tests of the fidelity of the model, not proofs of properties. *)
From Coq Require Import List String ZArith QArith.
From Verif Require Import Expr ConformDefs.
Import ListNotations. Open Scope string_scope. Open Scope list_scope. Open Scope Z_scope.
"""
main()
