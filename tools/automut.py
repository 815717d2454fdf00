#!/usr/bin/env python3
"""Automatic mutation sweep.

usage: automut.py seed per_definition [File ...]

Edits one token of a model definition (operator, comparison, literal, min/max,
flag, player one/two, branch), rebuilds the files that depend on it in a scratch
copy and stops at the first proof that no longer goes through.  Prints one JSON
line per mutant: killed (with the first failing lemma) or SURVIVED."""
import json, os, random, re, shutil, subprocess, sys
from mutate import deps, order, SRC
def uncomment_spans(s):
    """Positions inside comments."""
    bad = bytearray(len(s)); d = 0; i = 0
    while i < len(s):
        if s.startswith("(*", i): d += 1; bad[i] = bad[i+1] = 1; i += 2; continue
        if s.startswith("*)", i) and d: d -= 1; bad[i] = bad[i+1] = 1; i += 2; continue
        bad[i] = 1 if d else 0; i += 1
    return bad
def subs(tok):
    out = []
    R = {" + ": [" - "], " - ": [" + "], " * ": [" / "], " / ": [" * "], "<?": ["<=?", ">?"], ">?": [">=?", "<?"], "<=?": ["<?", ">=?"],
         ">=?": [">?", "<=?"], "&&": ["||"], "||": ["&&"], "fmin ": ["fmax "], "fmax ": ["fmin "], "true": ["false"], "false": ["true"],
         "fst ": ["snd "], "snd ": ["fst "], "player_one": ["player_two"], "player_two": ["player_one"], "WIN": ["LOSS"], "LOSS": ["DRAW"],
         "team_one": ["team_two"], "team_two": ["team_one"], "negb ": [""], "frecip ": ["fabs "], "fsqrt ": ["fabs "], "fabs ": ["fneg "],
         "rev ": ["id "], "skipn ": ["firstn "], "firstn ": ["skipn "], "ffloor ": ["fceil "], "Some ": []}
    return R.get(tok, out)
TOK = re.compile(r" \+ | - | \* | / |<=\?|>=\?|<\?|>\?|&&|\|\||fmin |fmax |\btrue\b|\bfalse\b|\bfst |\bsnd |player_one\b|player_two\b|team_one\b|team_two\b|\bWIN\b|\bLOSS\b|negb |\bfrecip |\bfsqrt |\bfabs |\brev |\bskipn |\bfirstn |#\d+|flit \d+ \d+|fpowi \w+ \d|\b[a-z]\w*_(?:one|two|1|2)\b|\b[a-z]+[12]\b")
def mutants(path):
    s = open(path).read(); bad = uncomment_spans(s)
    defs = [(m.start(), m.group(2)) for m in re.finditer(r"(?m)^\s*(Definition|Fixpoint)\s+([\w']+)", s)] + [(len(s), "")]
    out = []
    for (a, name), (b, _) in zip(defs, defs[1:]):
        k = s.find(":=", a); 
        if k < 0: continue
        for m in TOK.finditer(s, k + 2, b):
            if bad[m.start()]: continue
            t = m.group(0); rs = []
            if t.startswith("#"): rs = ["#%d" % (int(t[1:]) + 1)] + (["#0"] if t != "#0" else [])
            elif t.startswith("flit"):
                _, x, y = t.split(); rs = ["flit %d %s" % (int(x) + 1, y)]
            elif t.startswith("fpowi"):
                f, x, y = t.split(); rs = ["fpowi %s %d" % (x, int(y) + 1)]
            elif re.fullmatch(r"[a-z]\w*_(one|two|1|2)", t) and t not in ("player_one", "player_two", "team_one", "team_two"):
                rs = [t[:-3] + ("two" if t.endswith("one") else "one")] if t[-1] in "eo" else [t[:-1] + ("2" if t[-1] == "1" else "1")]
            elif re.fullmatch(r"[a-z]+[12]", t): rs = [t[:-1] + ("2" if t[-1] == "1" else "1")]
            else: rs = subs(t)
            for r in rs: out.append((name, m.start(), t, r))
    return s, out
def run(work, fil, s, mut, d, ords):
    name, pos, t, r = mut
    shutil.rmtree(work, ignore_errors=True); shutil.copytree(SRC, work, copy_function=shutil.copy2)
    f0 = "theories/" + fil
    open(f"{work}/{f0}", "w").write(s[:pos] + r + s[pos + len(t):])
    todo = {f0}; ch = True
    while ch:
        ch = False
        for f, ds in d.items():
            if f not in todo and any(x in todo for x in ds): todo.add(f); ch = True
    for f in ords:
        if f not in todo or ("/Props" in f and "PropsElo" not in f): continue  # the other Props files only restate lemmas
        p = subprocess.run(["timeout", "900", "coqc", "-q", "-Q", "theories", "Verif", f], cwd=work, capture_output=True, text=True)
        if p.returncode:
            if f == f0: return None
            ln = re.findall(r'File "[^"]*", line (\d+)', p.stderr); ln = int(ln[-1]) if ln else 0
            src = open(f"{work}/{f}").read().split("\n"); i = ln - 1; lem = "?"
            while i >= 0:
                m = re.match(r"\s*(?:#\[local\] )?(?:Lemma|Theorem|Example|Corollary|Fact|Definition|Ltac)\s+([\w']+)", src[i])
                if m: lem = m.group(1); break
                i -= 1
            return f[9:] + ": " + lem
    return "SURVIVED"
if __name__ == "__main__":
    random.seed(int(sys.argv[1])); per = int(sys.argv[2])
    files = sys.argv[3:] or [os.path.basename(f) for f in order() if "/Model" in f]
    work = "/tmp/am/w%d" % os.getpid(); d = deps(); ords = order()
    for fil in files:
        s, ms = mutants(f"{SRC}/theories/{fil}")
        by = {}
        for m in ms: by.setdefault(m[0], []).append(m)
        for name, l in by.items():
            random.shuffle(l); n = 0
            for m in l:
                if n >= per: break
                res = run(work, fil, s, m, d, ords)
                if res is None: continue
                n += 1; a, b = max(0, m[1] - 45), m[1] + len(m[2]) + 35
                ctx = s[a:m[1]] + "[[" + m[2] + " => " + m[3] + "]]" + s[m[1] + len(m[2]):b]
                print(json.dumps({"file": fil, "def": name, "edit": " ".join(ctx.split()), "result": res}), flush=True)
    shutil.rmtree(work, ignore_errors=True)
