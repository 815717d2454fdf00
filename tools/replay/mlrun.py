"""Run the extracted model (JSON produced by Coq's extraction) with binary64 floats.

The model is written over an abstract record of f64 operations; here the record is
filled with the machine's floating-point operations and the C library's
exp/log/pow/..., so that the expected values in the repository's unit tests can be
compared with what the model computes."""
import ctypes, ctypes.util, json, math, struct, sys, threading
sys.setrecursionlimit(10**6)
_m = ctypes.CDLL(ctypes.util.find_library("m") or "libm.so.6")
def _f(name, n):
    f = getattr(_m, name); f.restype = ctypes.c_double; f.argtypes = [ctypes.c_double] * n
    return f
c_exp, c_log, c_expm1, c_log1p = _f("exp", 1), _f("log", 1), _f("expm1", 1), _f("log1p", 1)
c_pow, c_hypot, c_fma, c_round = _f("pow", 2), _f("hypot", 2), _f("fma", 3), _f("round", 1)
c_sqrt, c_fmin, c_fmax = _f("sqrt", 1), _f("fmin", 2), _f("fmax", 2)

T, Fa = ("True",), ("False",)
def b(x): return T if x else Fa
def div(x, y):
    if y == 0.0 and not math.isnan(y):
        if x == 0.0 or math.isnan(x): return math.nan
        return math.copysign(math.inf, x) * math.copysign(1.0, y)
    return x / y
def mul(x, y): return x * y

# Coq numbers <-> Python
def pos(n): return ("XH",) if n == 1 else (("XI" if n & 1 else "XO"), pos(n >> 1))
def unpos(p):
    r, s = 0, 0
    while p[0] != "XH":
        if p[0] == "XI": r |= 1 << s
        s += 1; p = p[1]
    return r | (1 << s)
def Z(n): return ("Z0",) if n == 0 else (("Zpos", pos(n)) if n > 0 else ("Zneg", pos(-n)))
def unZ(z): return 0 if z[0] == "Z0" else (unpos(z[1]) if z[0] == "Zpos" else -unpos(z[1]))
def N(n): return ("N0",) if n == 0 else ("Npos", pos(n))
def unN(z): return 0 if z[0] == "N0" else unpos(z[1])
def nat(n):
    r = ("O",)
    for _ in range(n): r = ("S", r)
    return r
def unnat(x):
    r = 0
    while x[0] == "S": r += 1; x = x[1]
    return r
def lst(l):
    r = ("Nil",)
    for x in reversed(l): r = ("Cons", x, r)
    return r
def unlst(l):
    r = []
    while l[0] == "Cons": r.append(l[1]); l = l[2]
    return r

from fractions import Fraction
def lit(m):
    def g(d):
        q = Fraction(unZ(m), unZ(d)); return q.numerator / q.denominator
    return g
def toZ(x):
    if math.isnan(x): return Z(0)
    if math.isinf(x): return Z(2**63 - 1 if x > 0 else -2**63)
    return Z(max(-2**63, min(2**63 - 1, int(x))))
def c1(f): return lambda x: f(x)
def c2(f): return lambda x: lambda y: f(x, y)
def c3(f): return lambda x: lambda y: lambda z: f(x, y, z)
F64 = ("Build_Arith",
  c2(lambda x, y: x + y), c2(lambda x, y: x - y), c2(mul), c2(div), c3(c_fma),
  c1(lambda x: -x), c1(abs), c1(c_sqrt), c1(c_exp), c1(c_log), c1(c_expm1), c1(c_log1p),
  c2(c_pow), c2(c_hypot), c2(c_fmin), c2(c_fmax), c1(c_round),
  c2(lambda x, y: b(x < y)), c2(lambda x, y: b(x <= y)), c2(lambda x, y: b(x == y)),
  c1(lambda x: b(math.isinf(x))), c1(lambda x: b(math.isnan(x))), c1(lambda x: b(math.copysign(1.0, x) < 0)),
  toZ, lambda z: float(unZ(z)), lit, math.inf, math.pi, math.sqrt(2.0), 0.7071067811865476,
  1.1283791670955126, 2.0**-52, 2.0**-1022, -0.0)

class Model:
    def __init__(self, path):
        d = json.load(open(path)); self.g = {}; self.types = {}; self.raw = {}
        for x in d["declarations"]:
            if x["what"] == "decl:term": self.raw[x["name"]] = x["value"]; self.types[x["name"]] = x["type"]
            elif x["what"] == "decl:fixgroup":
                for y in x["fixlist"]: self.raw[y["name"]] = y["value"]; self.types[y["name"]] = y["type"]
    def glob(self, n):
        if n not in self.g: self.g[n] = self.comp(self.raw[n])({})
        return self.g[n]
    def comp(self, e):
        w = e["what"]
        if w == "expr:rel":
            n = e["name"]; return lambda env: env[n]
        if w == "expr:global":
            n = e["name"]; return lambda env: self.glob(n)
        if w == "expr:lambda":
            body = self.comp(e["body"]); names = e["argnames"]
            def mk(i, env):
                if i == len(names): return body(env)
                def f(v):
                    e2 = dict(env); e2[names[i]] = v
                    return mk(i + 1, e2)
                return f
            return lambda env: mk(0, env)
        if w == "expr:apply":
            f = self.comp(e["func"]); args = [self.comp(a) for a in e["args"]]
            def ap(env):
                r = f(env)
                for a in args: r = r(a(env))
                return r
            return ap
        if w == "expr:constructor":
            n = e["name"]; args = [self.comp(a) for a in e["args"]]
            return lambda env: (n,) + tuple(a(env) for a in args)
        if w == "expr:let":
            v = self.comp(e["nameval"]); body = self.comp(e["body"]); n = e["name"]
            def lt(env):
                e2 = dict(env); e2[n] = v(env); return body(e2)
            return lt
        if w == "expr:case":
            sc = self.comp(e["expr"]); cs = []
            for c in e["cases"]:
                p = c["pat"]; body = self.comp(c["body"])
                if p["what"] == "pat:constructor": cs.append((p["name"], p["argnames"], body))
                elif p["what"] == "pat:rel": cs.append((None, [p["name"]], body))
                else: cs.append((None, [], body))
            def ca(env):
                v = sc(env)
                for n, a, body in cs:
                    if n is None:
                        e2 = dict(env)
                        if a: e2[a[0]] = v
                        return body(e2)
                    if v[0] == n:
                        e2 = dict(env); e2.update(zip(a, v[1:])); return body(e2)
                raise Exception("no case for " + str(v[0]))
            return ca
        raise Exception(w)
    def takes_arith(self, n):
        t = self.types[n]
        return t["what"] == "type:arrow" and t["left"].get("name") == "arith"
    def call(self, n, *args):
        r = self.glob(n)
        if self.takes_arith(n): r = r(F64)
        for a in args: r = r(a)
        return r
