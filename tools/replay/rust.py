"""A parser for the small part of Rust that the unit tests and doc examples use."""
import re
TOK = re.compile(r'''\s+|//[^\n]*|/\*.*?\*/|(?P<float>\d[\d_]*\.(?!\.)(?![a-zA-Z_])[\d_]*(?:[eE][+-]?\d+)?(?:_?f64)?|\d[\d_]*[eE][+-]?\d+|\d[\d_]*_?f64)|(?P<int>\d[\d_]*(?:usize|u8|i64|i32)?)|(?P<id>[A-Za-z_][A-Za-z_0-9]*!?(?!=)|[A-Za-z_][A-Za-z_0-9]*)|(?P<str>"(?:[^"\\]|\\.)*")|(?P<op>::|->|=>|\.\.=|\.\.|&&|\|\||==|!=|<=|>=|\+=|-=|\*=|/=|[-+*/%&|!<>=.,;:(){}\[\]#?^@$'])''', re.S)
def lex(s):
    out, i = [], 0
    while i < len(s):
        m = TOK.match(s, i)
        if not m: raise SyntaxError("lex " + s[i:i+40])
        if m.lastgroup: out.append((m.lastgroup, m.group()))
        i = m.end()
    return out + [("eof", "")]
BIN = {"||": 1, "&&": 2, "==": 3, "!=": 3, "<": 3, ">": 3, "<=": 3, ">=": 3, "+": 6, "-": 6, "*": 7, "/": 7, "%": 7}
class P:
    def __init__(self, s): self.t = lex(s); self.i = 0
    def pk(self, k=0): return self.t[min(self.i + k, len(self.t) - 1)][1]
    def kind(self, k=0): return self.t[min(self.i + k, len(self.t) - 1)][0]
    def nx(self): x = self.t[self.i]; self.i += 1; return x[1]
    def eat(self, x):
        if self.pk() == x and self.kind() != "str": self.i += 1; return True
        return False
    def need(self, x):
        if not self.eat(x): raise SyntaxError("expected %s at %s" % (x, " ".join(y[1] for y in self.t[self.i:self.i+8])))
    def skip_balanced(self, o, c):
        self.need(o); d = 1
        while d:
            x = self.nx()
            if x == o: d += 1
            if x == c: d -= 1
    def type_(self):
        """Types are kept as text."""
        s, d = [], 0
        while True:
            x = self.pk()
            if d == 0 and (x in ("=", ";", ",", ")", "{", "|", "]", "=>", "+", "-", "*", "/") or x == "eof" or self.kind() == "eof" or x == ">" and d == 0 or x == "<" and s and s[-1] in ("f64", "usize")): break
            if x in "<([": d += 1
            if x in ">)]": d -= 1
            s.append(self.nx())
        return "".join(s)
    def block(self):
        self.need("{"); st = self.stmts("}"); self.need("}"); return ("block", st)
    def stmts(self, end):
        r = []
        while self.pk() != end and self.kind() != "eof":
            while self.pk() == "#":
                self.nx(); self.eat("!"); self.skip_balanced("[", "]")
            if self.eat(";"): continue
            if self.pk() == end: break
            if self.pk() == "use":
                u = []
                while self.pk() != ";": u.append(self.nx())
                self.nx(); r.append(("use", u)); continue
            if self.pk() in ("const", "static"):
                self.nx(); n = self.nx(); self.need(":"); ty = self.type_(); self.need("="); e = self.expr(); self.need(";"); r.append(("let", ("pid", n), ty, e)); continue
            if self.pk() == "let":
                self.nx(); p = self.pat(); ty = None
                if self.eat(":"): ty = self.type_()
                self.need("="); e = self.expr(); self.need(";"); r.append(("let", p, ty, e)); continue
            if self.pk() == "for":
                self.nx(); p = self.pat(); self.need("in"); e = self.expr(nostruct=True); r.append(("for", p, e, self.block())); continue
            if self.pk() == "while":
                self.nx(); e = self.expr(nostruct=True); r.append(("while", e, self.block())); continue
            e = self.expr()
            if self.pk() in ("=", "+=", "-=", "*=", "/="):
                op = self.nx(); v = self.expr(); self.need(";"); r.append(("assign", op, e, v)); continue
            if self.eat(";"): r.append(("expr", e))
            elif self.pk() == end or self.kind() == "eof": r.append(("value", e))
            elif e[0] in ("if", "match", "block"): r.append(("expr", e))
            else: raise SyntaxError("stmt at " + " ".join(y[1] for y in self.t[self.i:self.i+8]))
        return r
    def pat(self):
        if self.eat("&"): return self.pat()
        if self.eat("mut"): return self.pat()
        if self.eat("("):
            ps = []
            while not self.eat(")"):
                ps.append(self.pat()); self.eat(",")
            return ("ptup", ps)
        if self.kind() in ("int", "float"): return ("plit", self.expr())
        n = [self.nx()]
        while self.eat("::"): n.append(self.nx())
        if self.pk() == "(":
            self.nx(); ps = []
            while not self.eat(")"):
                ps.append(self.pat()); self.eat(",")
            return ("pcon", n, ps)
        if self.pk() == "{":
            self.nx(); fs = []
            while not self.eat("}"):
                f = self.nx()
                if self.eat(":"): fs.append((f, self.pat()))
                elif f != "..": fs.append((f, ("pid", f)))
                self.eat(",")
            return ("prec", n, fs)
        if len(n) == 1 and (n[0][0].islower() or n[0][0] == "_"): return ("pid", n[0])
        return ("pcon", n, [])
    def args(self, end):
        a = []
        while not self.eat(end):
            a.append(self.expr())
            if not self.eat(","): self.need(end); break
        return a
    def expr(self, lv=0, nostruct=False):
        if lv == 0 and self.pk() == "..":
            self.nx(); return ("range", None, None if self.pk() in ("]", ")") else self.expr(1))
        l = self.unary(nostruct)
        while True:
            o = self.pk()
            if o == "as": self.nx(); l = ("as", l, self.type_()); continue
            if o in ("..", "..=") and lv == 0:
                self.nx(); r = None if self.pk() in ("]", ")", "{") else self.expr(1, nostruct); return ("range", l, r, o)
            if self.kind() == "op" and o in BIN and BIN[o] > lv:
                self.nx(); r = self.expr(BIN[o], nostruct); l = ("bin", o, l, r); continue
            return l
    def unary(self, ns):
        if self.kind() == "op":
            if self.eat("-"): return ("neg", self.unary(ns))
            if self.eat("!"): return ("not", self.unary(ns))
            if self.eat("&&"): self.eat("mut"); return self.unary(ns)
            if self.eat("&"): self.eat("mut"); return self.unary(ns)
            if self.eat("*"): return self.unary(ns)
        return self.postfix(self.prim(ns))
    def postfix(self, e):
        while True:
            if self.pk() == "." and self.kind() == "op":
                self.nx(); n = self.nx()
                if self.kind(-1) == "float":  # x.0.1
                    for k in n.split("."): e = ("field", e, k)
                    continue
                if self.pk() == "::": self.nx(); self.skip_balanced("<", ">")
                if self.pk() == "(": self.nx(); e = ("mcall", e, n, self.args(")"))
                else: e = ("field", e, n)
            elif self.pk() == "(" : self.nx(); e = ("call", e, self.args(")"))
            elif self.pk() == "[": self.nx(); i = self.expr(); self.need("]"); e = ("index", e, i)
            elif self.pk() == "?": self.nx()
            else: return e
    def prim(self, ns):
        k, x = self.t[self.i]
        if k == "float": self.i += 1; return ("lit", float(x.replace("_", "").replace("f64", "")))
        if k == "int": self.i += 1; return ("lit", int(re.sub(r"usize|u8|i64|i32", "", x).replace("_", "")))
        if k == "str": self.i += 1; return ("lit", x[1:-1])
        if x == "(":
            self.nx()
            if self.eat(")"): return ("tuple", [])
            e = self.expr()
            if self.eat(")"): return ("paren", e)
            es = [e]
            while self.eat(","):
                if self.pk() == ")": break
                es.append(self.expr())
            self.need(")"); return ("tuple", es)
        if x == "[":
            self.nx()
            if self.eat("]"): return ("list", [])
            e = self.expr()
            if self.eat(";"): n = self.expr(); self.need("]"); return ("repeat", e, n)
            es = [e]
            while self.eat(","):
                if self.pk() == "]": break
                es.append(self.expr())
            self.need("]"); return ("list", es)
        if x == "{": return self.block()
        if x in ("|", "||"):
            self.nx(); ps = []
            if x == "|":
                while not self.eat("|"):
                    ps.append(self.pat())
                    if self.eat(":"): self.type_()
                    self.eat(",")
            return ("lambda", ps, self.expr())
        if x == "if":
            self.nx(); c = self.expr(nostruct=True); t = self.block(); f = None
            if self.eat("else"): f = self.expr() if self.pk() == "if" else self.block()
            return ("if", c, t, f)
        if k != "id": raise SyntaxError("prim " + x)
        self.nx()
        if x.endswith("!"):
            if x == "matches!":
                self.need("("); e = self.expr(); self.need(","); p = self.pat(); self.eat(","); self.need(")"); return ("matches", e, p)
            if x == "format!": self.skip_balanced("(", ")"); return ("lit", "formatted")
            if self.pk() == "[":
                e = self.prim(ns); return e
            self.need("("); return ("macro", x, self.args(")"))
        path = [x]
        while self.eat("::"):
            if self.pk() == "<": self.skip_balanced("<", ">"); continue
            path.append(self.nx())
        if self.pk() == "{" and not ns and path[-1][0].isupper() and (self.pk(2) in (":", ",", "}") or self.pk(1) == "}"):
            self.nx(); fs = []
            while not self.eat("}"):
                if self.eat(".."): fs.append((None, self.expr())); continue
                f = self.nx()
                fs.append((f, self.expr() if self.eat(":") else ("path", [f]))); self.eat(",")
            return ("struct", path, fs)
        return ("path", path)
