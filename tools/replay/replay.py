"""Replay the repository's unit tests and doc examples against the extracted model.

Every call of a library function in a test is evaluated with the model; the test's own
assertions (mostly literal values within f64::EPSILON) are then checked."""
import copy, glob, math, os, re, subprocess, sys, threading, time
sys.path.insert(0, os.path.dirname(os.path.abspath(__file__)))
from mlrun import *
import rust
SRC = "/repo/src"
PFX = dict(elo="elo", fifa="fifa", ingo="ingo", uscf="uscf", egf="egf", dwz="dwz", glicko="glicko", sticko="sticko", glicko_boost="boost", glicko2="glicko2", weng_lin="wl", trueskill="ts")
# Rust struct -> constructor, [(field, kind)]
f = "f"; n = "n"
STRUCT = {
 "EloRating": ("MkElo", [("rating", f)]), "EloConfig": ("MkEloConfig", [("k", f)]),
 "FifaRating": ("MkFifa", [("rating", f)]), "FifaConfig": ("MkFifaConfig", [("importance", f), ("knockout", "b"), ("penalties", "b")]),
 "IngoRating": ("MkIngo", [("rating", f), ("age", n)]),
 "USCFRating": ("MkUscf", [("rating", f), ("games", n)]), "USCFConfig": ("MkUscfConfig", [("t", f)]),
 "EGFRating": ("MkEgf", [("rating", f)]), "EGFConfig": ("MkEgfConfig", [("handicap", f)]),
 "DWZRating": ("MkDwz", [("rating", f), ("index", n), ("age", n)]),
 "GlickoRating": ("MkGlicko", [("rating", f), ("deviation", f)]), "GlickoConfig": ("MkGlickoConfig", [("c", f)]),
 "StickoRating": ("MkSticko", [("rating", f), ("deviation", f)]), "StickoConfig": ("MkStickoConfig", [("h", f), ("beta", f), ("lambda", f), ("gamma", f), ("c", f)]),
 "GlickoBoostRating": ("MkBoost", [("rating", f), ("deviation", f)]),
 "GlickoBoostConfig": ("MkBoostConfig", [("eta", f), ("k", f), ("b0", f), ("b1", f)] + [("alpha%d" % i, f) for i in range(5)]),
 "Glicko2Rating": ("MkGlicko2", [("rating", f), ("deviation", f), ("volatility", f)]), "Glicko2Config": ("MkGlicko2Config", [("tau", f), ("convergence_tolerance", f)]),
 "WengLinRating": ("MkWL", [("rating", f), ("uncertainty", f)]), "WengLinConfig": ("MkWLConfig", [("beta", f), ("uncertainty_tolerance", f)]),
 "TrueSkillRating": ("MkTS", [("rating", f), ("uncertainty", f)]), "TrueSkillConfig": ("MkTSConfig", [("draw_probability", f), ("beta", f), ("default_dynamics", f)]),
 "MultiTeamOutcome": ("MkMTO", [("rank", n)]), "Gaussian": ("MkG", [("pi", f), ("tau", f)]),
}
OWNER = {"EloRating": "elo", "FifaRating": "fifa", "IngoRating": "ingo", "USCFRating": "uscf", "EGFRating": "egf", "DWZRating": "dwz", "GlickoRating": "glicko", "StickoRating": "sticko",
 "GlickoBoostRating": "boost", "Glicko2Rating": "glicko2", "WengLinRating": "wl", "TrueSkillRating": "ts"}
OWNER.update({k.replace("Rating", "Config"): v for k, v in list(OWNER.items())})
SYS = {"Elo": "elo", "Fifa": "fifa", "Ingo": "ingo", "USCF": "uscf", "EGF": "egf", "DWZ": "dwz", "Glicko": "glicko", "Sticko": "sticko", "GlickoBoost": "boost", "Glicko2": "glicko2", "WengLin": "wl", "TrueSkill": "ts"}
SHORT = dict(elo="elo", fifa="fifa", ingo="ingo", uscf="uscf", egf="egf", dwz="dwz", glicko="gl", sticko="st", boost="gb", glicko2="g2", wl="wl", ts="ts")
class Struct:
    def __init__(self, name, d): self.name, self.d = name, d
    def __eq__(self, o): return isinstance(o, Struct) and self.name == o.name and self.d == o.d
    def __repr__(self): return "%s%s" % (self.name, self.d)
class Opt:
    def __init__(self, v=None, some=False): self.v, self.some = v, some
    def __eq__(self, o): return isinstance(o, Opt) and self.some == o.some and self.v == o.v
class ResV:
    def __init__(self, tag, v=None): self.tag, self.v = tag, v
    def __eq__(self, o): return isinstance(o, ResV) and (self.tag, self.v) == (o.tag, o.v)
    def __repr__(self): return "%s(%r)" % (self.tag, self.v)
class Sys:
    def __init__(self, p, cfg): self.p, self.cfg = p, cfg
class Mat:
    def __init__(self, v): self.v = v
class Fn:
    def __init__(self, name): self.name = name
class Unsupported(Exception): pass
class Panic(Exception): pass
class Failed(Exception): pass
OUT = ("WIN", "LOSS", "DRAW")

class Run:
    def __init__(self, model):
        self.m = model; self.fuel = nat(1500); self.con = {}
        for k, (c, fs) in STRUCT.items(): self.con[c] = k
        self.cov = {}; self.checks = 0
        self.calls = 0
    # ---- conversions
    def to(self, v, kind=None):
        if isinstance(v, bool): return b(v)
        if isinstance(v, float): return v
        if isinstance(v, int): return nat(v) if kind == "nat" else (float(v) if kind == "f" else N(v))
        if isinstance(v, str) and v in OUT: return (v,)
        if isinstance(v, list): return lst([self.to(x) for x in v])
        if isinstance(v, tuple):
            if len(v) == 0: return ("Tt",)
            r = self.to(v[0])
            for x in v[1:]: r = ("Pair", r, self.to(x))
            return r
        if isinstance(v, Opt): return ("Some", self.to(v.v)) if v.some else ("None",)
        if isinstance(v, Struct):
            c, fs = STRUCT[v.name]; d = dict(v.d)
            if v.name == "GlickoBoostConfig" and "b" in d:
                d["b0"], d["b1"] = d["b"]
                for i in range(5): d["alpha%d" % i] = d["alpha"][i]
            return (c,) + tuple(self.to(d[x], k) for x, k in fs)
        raise Unsupported("to " + repr(v))
    def back(self, v):
        if isinstance(v, float): return v
        if callable(v): raise Unsupported("function value")
        c = v[0]
        if c in ("True", "False"): return c == "True"
        if c in OUT: return c
        if c in ("N0", "Npos"): return unN(v)
        if c in ("Z0", "Zpos", "Zneg"): return unZ(v)
        if c in ("O", "S"): return unnat(v)
        if c in ("Nil", "Cons"): return [self.back(x) for x in unlst(v)]
        if c == "Pair": return (self.back(v[1]), self.back(v[2]))
        if c == "Some": return Opt(self.back(v[1]), True)
        if c == "None": return Opt()
        if c == "Ok": return ResV("Ok", self.back(v[1]))
        if c == "Err": return ResV("Err", v[1])
        if c == "Panic": raise Panic("model panics")
        if c in self.con:
            s = self.con[c]; d = {x: self.back(y) for (x, _), y in zip(STRUCT[s][1], v[1:])}
            if s == "GlickoBoostConfig":
                d["b"] = (d.pop("b0"), d.pop("b1")); d["alpha"] = tuple(d.pop("alpha%d" % i) for i in range(5))
            return Struct(s, d)
        raise Unsupported("back " + c)
    def call(self, name, args, opt_is_fuel=False):
        self.cov[name] = self.cov.get(name, 0) + 1; self.calls += 1
        r = self.m.call(name, *args)
        if opt_is_fuel:
            if r[0] == "None": raise Panic("no result")
            r = r[1]
        return self.back(r)
    # ---- library functions by Rust name in module p
    def lib(self, p, name, args):
        has = self.m.raw.__contains__
        if name in ("glicko2", "glicko2_rating_period"):
            return self.call(name, [self.fuel] + [self.to(a) for a in args], True)
        if name == "get_weights":
            r = self.call(name, [self.to(a) for a in args]); return r
        for cand in ([name] if name in ("elo", "fifa", "ingo", "uscf", "egf", "dwz", "glicko", "sticko", "glicko_boost", "weng_lin", "trueskill") or not has(p + "_" + name) else []) + [p + "_" + name, SHORT.get(p, p) + "_" + name, name]:
            if has(cand): return self.call(cand, [self.to(a) for a in args])
        raise Unsupported("function " + p + "::" + name)
    def new(self, ty, name, args, hint=None):
        if ty == "MultiTeamOutcome":
            return self.call("mto_new" if name == "new" else "mto_from_usize", [self.to(args[0])])
        if ty == "Matrix": return Mat(self.m.call("mat_from_data", lst([0.0] * (args[0] * args[1])), nat(args[0]), nat(args[1])))
        p = OWNER.get(ty)
        if ty == "Gaussian":
            if name == "with_pi_tau": return Struct("Gaussian", {"pi": args[0], "tau": args[1]})
            r = self.call("g_" + name, [self.to(a) for a in args])
            if not r.some: raise Panic("Gaussian")
            return r.v
        if p is None: raise Unsupported("type " + ty)
        if ty.endswith("Config"): return self.call(p + "_config_new", [])
        if name == "new": return self.call(p + "_new", [self.to(a) for a in args])
        if name == "default":
            return self.call(p + "_default" if p + "_default" in self.m.raw else p + "_new", [])
        if name == "from":
            a = args[0]
            if isinstance(a, Struct): return self.call("%s_from_%s" % (p, OWNER[a.name]), [self.to(a)])
            if isinstance(a, tuple):
                k = {2: "pair", 3: "triple"}[len(a)]; fn = "%s_from_%s" % (p, k)
                kinds = [x for _, x in STRUCT[ty][1]]
                return self.call(fn, [self.to(x, q) for x, q in zip(a, kinds)] if fn in ("dwz_from_triple", "dwz_from_pair", "glicko2_from_triple") else [self.to(a)])
            return self.call(p + "_from_f64", [self.to(a)])
        raise Unsupported(ty + "::" + name)
    def trait(self, tr, name, args, hint, env=None):
        if tr == "Rating" and name == "new":
            if not hint:   # inferred in Rust from the rating system the example imports
                hint = next(k for k in env["imp"] if k in SYS) + "Rating"
            return self.call(OWNER[hint] + "_rating_new", [self.to(a) for a in args])
        if name == "new": return Sys(SYS[hint], args[0] if args else ())
        if not isinstance(args[0], Sys): raise Unsupported("trait call on " + repr(args[0]))
        s = args[0]; k = {"RatingSystem": "sys", "RatingPeriodSystem": "psys", "TeamRatingSystem": "tsys", "MultiTeamRatingSystem": "msys"}[tr]
        fn = "%s_%s_%s" % (s.p, k, name); fuel = s.p == "glicko2" and name == "rate"
        cfg = [self.to(s.cfg)]; a = [self.to(x) for x in args[1:]]
        r = self.call(fn, ([self.fuel] if fuel else []) + cfg + a, fuel)
        if isinstance(r, ResV):   # the trait method itself unwraps
            if r.tag != "Ok": raise Panic(fn)
            r = r.v
        return r
    # ---- evaluation
    def ev(self, e, env, hint=None):
        k = e[0]
        if k == "lit": return e[1]
        if k == "paren": return self.ev(e[1], env, hint)
        if k == "tuple": return tuple(self.ev(x, env) for x in e[1])
        if k == "list": return [self.ev(x, env) for x in e[1]]
        if k == "repeat": return [copy.deepcopy(self.ev(e[1], env)) for _ in range(self.ev(e[2], env))]
        if k == "struct":
            ty = e[1][-1]; d = {}
            if ty not in STRUCT and ty != "GlickoBoostConfig": raise Unsupported("struct " + ty)
            for n_, x in e[2]:
                if n_ is None:
                    base = self.ev(x, env, ty); d = {**base.d, **d}
                else: d[n_] = self.ev(x, env)
            return Struct(ty, d)
        if k == "path":
            pth = e[1]
            if len(pth) == 1:
                if pth[0] in env["v"]: return env["v"][pth[0]]
                if pth[0] == "None": return Opt()
                if pth[0] in ("true", "false"): return pth[0] == "true"
                return Fn(pth)
            if pth[-1] in OUT and pth[-2] == "Outcomes": return pth[-1]
            if pth[-1] == "EPSILON": return 2.0**-52
            if pth[-1] == "MAX" and pth[0] == "f64": return sys.float_info.max
            if pth[-1] == "MIN_POSITIVE": return 2.0**-1022
            if pth[-1] == "INFINITY": return math.inf
            if pth[-1] == "NEG_INFINITY": return -math.inf
            if pth[-1] == "NAN": return math.nan
            if pth[-1] == "MAX" and pth[0] == "usize": return 2**64 - 1
            if pth[-1] == "PI": return math.pi
            if pth[-2].endswith("Error"): return (pth[-1],)
            return Fn(pth)
        if k == "neg": return -self.ev(e[1], env)
        if k == "not": return not self.ev(e[1], env)
        if k == "as":
            v = self.ev(e[1], env); return float(v) if e[2] == "f64" else (int(v) if e[2] == "usize" else v)
        if k == "bin":
            o = e[1]
            if o == "&&": return self.ev(e[2], env) and self.ev(e[3], env)
            if o == "||": return self.ev(e[2], env) or self.ev(e[3], env)
            x, y = self.ev(e[2], env), self.ev(e[3], env, "rhs")
            return self.binop(o, x, y)
        if k == "index":
            v = self.ev(e[1], env); i = e[2]
            if i[0] == "range":
                lo = self.ev(i[1], env) if i[1] else 0; hi = self.ev(i[2], env) if i[2] else len(v); return v[lo:hi]
            return v[self.ev(i, env)]
        if k == "field":
            v = self.ev(e[1], env)
            if isinstance(v, tuple): return v[int(e[2])]
            if isinstance(v, Struct):
                if e[2] in v.d: return v.d[e[2]]
            raise Unsupported("field " + e[2])
        if k == "lambda": return ("closure", e[1], e[2], env)
        if k == "block": return self.stmts(e[1], {"v": dict(env["v"]), "p": env["p"], "imp": env["imp"]})
        if k == "if":
            if self.ev(e[1], env): return self.ev(e[2], env)
            return self.ev(e[3], env) if e[3] else ()
        if k == "matches": return self.match(e[2], self.ev(e[1], env), None)
        if k == "macro": return self.macro(e, env)
        if k == "call": return self.callx(e, env, hint)
        if k == "mcall": return self.mcall(e, env, hint)
        if k == "range": return range(self.ev(e[1], env), self.ev(e[2], env) + (1 if e[3] == "..=" else 0))
        raise Unsupported(k)
    def binop(self, o, x, y):
        if isinstance(x, Mat): return self.mat({"+": "mat_add", "*": "mat_mul"}[o], x.v, y.v)
        if o == "+": return x + y
        if o == "-": return x - y
        if o == "*": return x * y
        if o == "/": return div(x, y) if isinstance(x, float) else x // y
        if o == "%": return x % y
        if o == "==": return self.eq(x, y)
        if o == "!=": return not self.eq(x, y)
        if isinstance(x, Struct) and x.name == "MultiTeamOutcome":
            c = self.m.call("mto_cmp", self.to(x), self.to(y))[0]; return {"<": c == "Lt", ">": c == "Gt", "<=": c != "Gt", ">=": c != "Lt"}[o]
        if isinstance(x, Struct) and x.name == "Gaussian": return self.binop(o, self.call("g_mu", [self.to(x)]), self.call("g_mu", [self.to(y)]))
        if isinstance(x, Struct): raise Unsupported("ordering of " + x.name)
        return {"<": x < y, ">": x > y, "<=": x <= y, ">=": x >= y}[o]
    def mat(self, name, *args):
        self.cov[name] = self.cov.get(name, 0) + 1; self.calls += 1
        r = self.m.call(name, *args)
        if r[0] == "None": raise Panic(name)
        return Mat(r[1])
    def eq(self, x, y):
        return x == y
    def macro(self, e, env):
        n_, a = e[1], e[2]
        if n_ == "assert!":
            self.checks += 1
            if not self.ev(a[0], env): raise Failed(show(a[0]) + self.detail(a[0], env))
            return ()
        if n_ in ("assert_eq!", "assert_ne!"):
            self.checks += 1
            x = self.ev(a[0], env, None); y = self.ev(a[1], env, x)
            if x == "formatted": self.checks -= 1; raise Unsupported("text of an error message")
            if self.eq(x, y) != (n_ == "assert_eq!"): raise Failed("%s: %r vs %r" % (n_, x, y))
            return ()
        raise Unsupported(n_)
    def detail(self, e, env):
        try:
            if e[0] == "bin":
                return "  [%r %s %r]" % (self.ev(e[2], env), e[1], self.ev(e[3], env)) + self.detail2(e[2], env)
        except Exception: pass
        return ""
    def detail2(self, e, env):
        while e[0] in ("mcall", "paren"): e = e[1]
        return "  [%r vs %r]" % (self.ev(e[2], env), self.ev(e[3], env)) if e[0] == "bin" else ""
    def callx(self, e, env, hint):
        fe = e[1]
        if fe[0] != "path": raise Unsupported("call of expression")
        pth = fe[1]; name = pth[-1]
        if len(pth) == 1 and name in ("Some", "Ok", "Err", "catch_unwind"):
            if name == "Some": return Opt(self.ev(e[2][0], env), True)
            if name == "catch_unwind":
                c = self.ev(e[2][0], env)
                try: return ResV("Ok", self.app(c, []))
                except Panic: return ResV("Err", ("panic",))
            return ResV(name, self.ev(e[2][0], env))
        if len(pth) >= 2 and pth[-2] in ("Rating", "RatingSystem", "RatingPeriodSystem", "TeamRatingSystem", "MultiTeamRatingSystem"):
            return self.trait(pth[-2], name, [self.ev(a, env) for a in e[2]], hint, env)
        if len(pth) >= 2 and pth[-2] == "usize" and name == "from": return self.call("usize_from_mto", [self.to(self.ev(e[2][0], env))])
        args = [self.ev(a, env) for a in e[2]]
        if len(pth) >= 2 and pth[-2] == "Vec": return []
        if len(pth) >= 2 and pth[-2] == "Default": return self.new(hint, "default", [])
        if len(pth) >= 2 and pth[-2][0].isupper():
            if pth[-2] in SYS and name == "new": return Sys(SYS[pth[-2]], args[0] if args else ())
            return self.new(pth[-2], name, args)
        mod = env["imp"].get(name, env["p"])
        if len(pth) >= 2 and pth[-2] in PFX: mod = PFX[pth[-2]]
        return self.lib(mod, name, args)
    def app(self, c, args):
        if isinstance(c, tuple) and c[0] == "closure":
            env = {"v": dict(c[3]["v"]), "p": c[3]["p"], "imp": c[3]["imp"]}
            for p, a in zip(c[1], args): self.bind(p, a, env)
            return self.ev(c[2], env)
        if isinstance(c, Fn): return self.callx(("call", ("path", c.name), [("lit", a) for a in args]), {"v": {}, "p": None, "imp": {}}, None)
        raise Unsupported("apply")
    def mcall(self, e, env, hint):
        n_ = e[2]; v = self.ev(e[1], env); a = e[3]
        if n_ in ("clone", "iter", "to_vec", "as_slice", "into_iter", "copied", "cloned", "collect", "to_owned", "as_ref", "borrow"): return copy.deepcopy(v)
        if isinstance(v, Mat): return self.mat("mat_" + n_, v.v)
        if isinstance(v, Sys):
            args = [self.ev(x, env) for x in a]
            if n_ == "rate":
                if len(args) == 3: tr = "TeamRatingSystem" if isinstance(args[0], list) else "RatingSystem"
                else: tr = "MultiTeamRatingSystem" if isinstance(args[0], list) else "RatingPeriodSystem"
            else:
                if len(args) == 1: tr = "MultiTeamRatingSystem"
                elif isinstance(args[0], list): tr = "TeamRatingSystem"
                else: tr = "RatingPeriodSystem" if isinstance(args[1], list) else "RatingSystem"
            return self.trait(tr, n_, [v] + args, hint)
        if n_ == "push": v.append(copy.deepcopy(self.ev(a[0], env))); return ()
        if n_ == "len": return len(v)
        if n_ == "is_empty": return len(v) == 0
        if n_ == "sum":
            s = -0.0
            for x in v: s += x
            return s
        if n_ == "map": return [self.app(self.ev(a[0], env), [x]) for x in v]
        if n_ == "enumerate": return list(enumerate(v))
        if n_ == "unwrap":
            if isinstance(v, Opt):
                if not v.some: raise Panic("unwrap")
                return v.v
            if v.tag != "Ok": raise Panic("unwrap")
            return v.v
        if n_ == "is_err": return v.tag == "Err"
        if n_ == "is_ok": return v.tag == "Ok"
        if n_ == "unwrap_err": return v.v
        if n_ == "is_some": return v.some
        if n_ == "is_none": return not v.some
        if n_ == "into":
            if hint == "MultiTeamOutcome" or isinstance(hint, Struct) and hint.name == "MultiTeamOutcome": return self.new("MultiTeamOutcome", "from", [v])
            if isinstance(hint, str) and hint in OWNER: return self.new(hint, "from", [v])
            raise Unsupported("into")
        if isinstance(v, float):
            if n_ == "abs": return abs(v)
            if n_ == "round": return c_round(v)
            if n_ == "mul_add": return c_fma(v, float(self.ev(a[0], env)), float(self.ev(a[1], env)))
            if n_ == "sqrt": return c_sqrt(v)
            if n_ == "powi": return v ** self.ev(a[0], env)
            if n_ == "is_nan": return math.isnan(v)
            if n_ == "is_finite": return math.isfinite(v)
            if n_ == "is_infinite": return math.isinf(v)
            if n_ == "max": return max(v, self.ev(a[0], env))
            if n_ == "min": return min(v, self.ev(a[0], env))
        if isinstance(v, str) and n_ == "to_chess_points": return self.call("to_chess_points", [(v,)])
        if isinstance(v, Struct):
            args = [self.ev(x, env) for x in a]
            if v.name == "MultiTeamOutcome" and n_ == "rank": return self.call("mto_rank", [self.to(v)])
            if v.name == "Gaussian" and n_ in ("mu", "sigma"): return self.call("g_" + n_, [self.to(v)])
            if n_ in ("rating", "uncertainty"): return self.call("%s_%s_get" % (OWNER[v.name], n_), [self.to(v)])
        raise Unsupported("method " + n_)
    def match(self, p, v, env):
        if p[0] == "pid":
            if env is not None: env["v"][p[1]] = v
            return True
        if p[0] in ("pcon", "prec"):
            n_ = p[1][-1]
            if n_ in ("Ok", "Err"): return isinstance(v, ResV) and v.tag == n_ and (not p[2] or self.match(p[2][0], v.v, env))
            if n_ in ("Some", "None"): return isinstance(v, Opt) and v.some == (n_ == "Some") and (not p[2] or self.match(p[2][0], v.v, env))
            if isinstance(v, tuple):   # an error value of the model
                if {"Weight": "WeightErr"}.get(n_, n_) != v[0]: return False
                if p[0] == "prec": return all(self.match(q, unnat(x), env) for (_, q), x in zip(p[2], v[1:]))
                return True
        if p[0] == "plit": return self.ev(p[1], env or {"v": {}}) == v
        raise Unsupported("pattern")
    def bind(self, p, v, env):
        if p[0] == "ptup":
            for q, x in zip(p[1], v): self.bind(q, x, env)
        else: self.match(p, copy.deepcopy(v), env)
    def assign(self, e, v, env):
        if e[0] == "paren": return self.assign(e[1], v, env)
        if e[0] == "tuple":
            for q, x in zip(e[1], v): self.assign(q, x, env)
        elif e[0] == "path":
            if e[1] != ["_"]: env["v"][e[1][0]] = copy.deepcopy(v)
        elif e[0] == "field": self.ev(e[1], env).d[e[2]] = copy.deepcopy(v)
        elif e[0] == "index": self.ev(e[1], env)[self.ev(e[2], env)] = copy.deepcopy(v)
        else: raise Unsupported("assign")
    def stmts(self, ss, env):
        for s in ss:
            if s[0] == "use": self.imports(s[1], env)
            elif s[0] == "let": self.bind(s[1], self.ev(s[3], env, (s[2] or "").lstrip("&")), env)
            elif s[0] == "expr": self.ev(s[1], env)
            elif s[0] == "value": return self.ev(s[1], env)
            elif s[0] == "assign":
                v = self.ev(s[3], env)
                if s[1] != "=": v = self.binop(s[1][0], self.ev(s[2], env), v)
                self.assign(s[2], v, env)
            elif s[0] == "for":
                for x in list(self.ev(s[2], env)):
                    self.bind(s[1], x, env); self.stmts(s[3][1], env)
            elif s[0] == "while":
                while self.ev(s[1], env): self.stmts(s[2][1], env)
        return ()
    def imports(self, toks, env):
        def go(i, mod):
            while i < len(toks):
                x = toks[i]
                if x == "{": i = go(i + 1, mod)
                elif x == "}": return i + 1
                elif x in PFX and i + 1 < len(toks) and toks[i + 1] == "::": mod2 = PFX[x]; i += 2; i = go_one(i, mod2)
                else:
                    if mod and re.match(r"\w", x): env["imp"][x] = mod
                    i += 1
            return i
        def go_one(i, mod):
            if toks[i] == "{": return go(i + 1, mod)
            env["imp"][toks[i]] = mod; return i + 1
        go(0, None)
def show(e):
    return " ".join(str(x) for x in flat(e))[:150]
def flat(e):
    if isinstance(e, (list, tuple)):
        for x in e: yield from flat(x)
    else: yield e

def tests_of(path):
    s = open(path).read(); i = s.find("#[cfg(test)]")
    if i >= 0:
        t = s[i:]
        consts = re.findall(r"^    const [^;]*;", t, re.M)
        for m in re.finditer(r"((?:    #\[[^\n]*\n|    ///[^\n]*\n)*)    fn (\w+)\(\) \{\n(.*?)\n    \}\n", t, re.S):
            if "#[test]" not in m.group(1): continue
            yield "test", m.group(2), "\n".join(consts) + m.group(3), "should_panic" in m.group(1), t[:m.start()].count("\n")
    # doc examples
    lines = s.split("\n"); j = 0; cur = None
    for ln, l in enumerate(lines):
        m = re.match(r"\s*//[/!] ?(.*)", l)
        if not m:
            cur = None; continue
        x = m.group(1)
        if x.startswith("```"):
            if cur is None: cur = []; lang = x[3:].strip(); st = ln
            else:
                if lang in ("", "rust"): yield "doc", "line%d" % (st + 1), "\n".join(y[2:] if y.startswith("# ") else y for y in cur), False, st
                cur = None
        elif cur is not None: cur.append(x)

def main():
    model = Model(sys.argv[1]); only = sys.argv[2:]
    files = sorted(glob.glob(SRC + "/*.rs") + glob.glob(SRC + "/trueskill/*.rs"))
    tot = {"pass": 0, "FAIL": 0, "skip": 0}; run = Run(model); out = []
    for p in files:
        rel = os.path.relpath(p, SRC); mod = "ts" if rel.startswith("trueskill") else PFX.get(rel[:-3], "")
        for kind, name, src, sp, ln in tests_of(p):
            if only and not any(o in rel + ":" + name for o in only): continue
            run.checks = 0; t0 = time.time()
            try:
                ast = rust.P(src).stmts("\0"); env = {"v": {}, "p": mod, "imp": {}}
                try:
                    run.stmts(ast, env); res = "FAIL" if sp else "pass"; why = "should panic" if sp else ""
                except Panic as ex: res = "pass" if sp else "FAIL"; why = "panic: " + str(ex) if not sp else "panics as expected"
                except Failed as ex: res = "FAIL"; why = str(ex)
            except Unsupported as ex: res = "skip"; why = str(ex)
            except (TypeError, KeyError, AttributeError, ValueError) as ex: res = "skip"; why = "replay tool: %r" % ex
            except SyntaxError as ex: res = "skip"; why = "syntax: " + str(ex)
            tot[res] += 1
            out.append((res, rel, kind, name, run.checks, why)); print("%-4s %-26s %-4s %-40s %3d checks %5.1fs %s" % (res, rel, kind, name, run.checks, time.time() - t0, why), flush=True)
    print(tot, "calls", run.calls)
    if not only: print("assertions checked:", sum(o[4] for o in out), "; model functions called directly:", len(run.cov))
    if not only and os.environ.get("NAMES"):
        print("never evaluated:", [x for x in os.environ["NAMES"].split() if x in model.raw and x not in model.g])
    if tot["FAIL"]: os._exit(1)
if __name__ == "__main__":
    threading.stack_size(1 << 29); t = threading.Thread(target=main); t.start(); t.join()
