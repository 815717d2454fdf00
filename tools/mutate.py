#!/usr/bin/env python3
"""Mutation testing of the theorems.

usage: mutate.py mutants.py [name ...]

Each mutant is a dict (name, file, old, new, claim, expect and optionally
only: the property files to check).  The tool copies
/verif/rocq to a scratch directory, applies the edit to one model file,
rebuilds everything that depends on it and replaces every proof that no longer
goes through by [Admitted], until everything compiles.  A property theorem
counts as failed if Print Assumptions then shows one of those lemmas (or the
theorem itself was admitted).  One line per mutant is appended to
seeded/LOG.jsonl."""
import json, os, re, subprocess, sys, shutil, runpy
SRC = os.environ.get("MUT_SRC", "/verif/rocq"); LOG = "/verif/seeded/LOG.jsonl"

def order():
    fs = [l.strip() for l in open(SRC + "/_CoqProject") if l.strip().endswith(".v")]
    return fs

def deps():
    out = subprocess.run(["coqdep", "-f", "_CoqProject"], cwd=SRC, capture_output=True, text=True).stdout
    d = {}
    for line in out.splitlines():
        m = re.match(r"(theories/\S+)\.vo .*?: (.*)", line)
        if m:
            d[m.group(1) + ".v"] = [x[:-1] for x in m.group(2).split() if x.endswith(".vo") and x.startswith("theories/")]
    return d

def admit(path, line):
    """Replace the proof around [line] by Admitted; return the lemma's name."""
    src = open(path).read().split("\n")
    start = line - 1
    while start >= 0 and not re.match(r"(Lemma|Theorem|Example|Corollary|Fact|Remark)\b", src[start].lstrip().replace("#[local] ", "")):
        start -= 1
    if start < 0: return None
    name = re.match(r"\s*(?:#\[local\] )?\w+\s+([A-Za-z0-9_']+)", src[start]).group(1)
    j = start
    while j < len(src) and not re.search(r"\b(Qed|Defined)\.", src[j]): j += 1
    if j == len(src): return None
    body = "\n".join(src[start:j + 1])
    k = body.index("Proof")
    rest = re.search(r"\b(Qed|Defined)\.(.*)$", body, re.S).group(2)
    nl = body[:k].count("\n")
    new = body[:k] + "Admitted." + rest
    new += "\n" * (body.count("\n") - new.count("\n"))
    src[start:j + 1] = new.split("\n")
    open(path, "w").write("\n".join(src))
    return name

def defname(mut):
    """The definition that contains the edited text."""
    s = open(f"{SRC}/theories/{mut['file']}").read()
    pre = s[:s.index(mut["old"])+len(mut["old"])]
    ds = re.findall(r"(?m)^\s*(?:Definition|Fixpoint|Record|Inductive)\s+(\w+)", pre)
    return ds[-1] if ds else ""

def failing(path, work):
    """Names of all lemmas of the file whose proof fails, found in one pass:
    coqtop goes on after an error, so every Qed is followed by Admitted, which
    succeeds exactly if the proof was still open."""
    src = open(path).read()
    src = re.sub(r"\b(Qed|Defined)\.", r"\1. Admitted.", src)
    r = subprocess.run(["timeout", "1800", "coqtop", "-q", "-Q", "theories", "Verif"], input=src, cwd=work, capture_output=True, text=True)
    return set(re.findall(r"(\S+) is declared", r.stdout))

def run(mut, work):
    shutil.rmtree(work, ignore_errors=True)
    shutil.copytree(SRC, work, copy_function=shutil.copy2)
    p = f"{work}/theories/{mut['file']}"
    s = open(p).read()
    assert s.count(mut["old"]) == mut.get("count", 1), (mut["name"], s.count(mut["old"]))
    open(p, "w").write(s.replace(mut["old"], mut["new"]))
    d = deps(); todo = set(["theories/" + mut["file"]])
    changed = True
    while changed:
        changed = False
        for f, ds in d.items():
            if f not in todo and any(x in todo for x in ds):
                todo.add(f); changed = True
    if mut.get("only"):  # rebuild only what these property files need
        need, stack = set(), ["theories/%s.v" % x for x in mut["only"]]
        while stack:
            f = stack.pop()
            if f not in need: need.add(f); stack += d.get(f, [])
        todo &= need
    admitted, failed, broken = [], set(), []
    for f in order():
        if f not in todo: continue
        path = f"{work}/{f}"
        tried = False
        for _ in range(400):
            r = subprocess.run(["timeout", "900", "coqc", "-q", "-Q", "theories", "Verif", path], cwd=work, capture_output=True, text=True)
            if r.returncode == 0: break
            if r.returncode == 124:  # a tactic that no longer ends: give up the lemma it is in
                r = subprocess.run(["timeout", "600", "coqc", "-time", "-q", "-Q", "theories", "Verif", path], cwd=work, capture_output=True, text=True)
                ends = re.findall(r"^Chars \d+ - (\d+)", r.stdout, re.M)
                n = admit(path, open(path, "rb").read()[:int(ends[-1]) + 2].count(b"\n") + 1) if ends else None
                if n is None: broken.append((f, "timeout")); return admitted, failed, broken
                admitted.append(n); continue
            m = re.findall(r'File "[^"]*", line (\d+), characters[^\n]*\n(?:Error|In environment|[^\n]*\n)*?', r.stderr)
            errs = [int(a) for a, rest in re.findall(r'File "[^"]*", line (\d+), characters [^\n]*:\n(Error|(?:[^F][^\n]*\n)*?Error)', r.stderr)]
            if not errs: errs = [int(m[-1])] if m else []
            if not errs: broken.append((f, r.stderr[-300:])); return admitted, failed, broken
            if not tried:
                tried = True
                n = None
                for b in sorted(failing(path, work)):
                    lines = open(path).read().split("\n")
                    ln = [i for i, l in enumerate(lines) if re.match(r"\s*(?:#\[local\] )?(Lemma|Theorem|Example|Corollary|Fact|Remark)\s+" + re.escape(b) + r"(?![A-Za-z0-9_'])", l)]
                    if ln: n = admit(path, ln[0] + 1); admitted.append(n)
                if n: continue
            n = admit(path, errs[-1])
            if n is None: broken.append((f, r.stderr[-400:])); return admitted, failed, broken
            admitted.append(n)
        if re.search(r"/Props", f):
            names = re.findall(r"^Print Assumptions (\S+)\.", open(path).read(), re.M)
            blocks = re.split(r"(?m)^(?=Axioms:|Closed under)", r.stdout)[1:]
            for n, b in zip(names, blocks):
                ax = re.findall(r"(?m)^([A-Za-z0-9_.']+)\s*(?::|$)", b)
                if any(a.split(".")[-1] in admitted for a in ax): failed.add(n)
    return admitted, failed, broken

if __name__ == "__main__":
    muts = runpy.run_path(sys.argv[1])["MUTANTS"]
    sel = sys.argv[2:]
    work = "/tmp/mut_%d" % os.getpid()
    for m in muts:
        if sel and m["name"] not in sel: continue
        if os.environ.get("MUT_EXPECTED"):  # check only the files of the expected theorems
            m["only"] = sorted(f[:-2] for f in os.listdir(SRC + "/theories") if re.match(r"Props.*\.v$", f)
                               and any(re.search(r"(?m)^Theorem %s_" % e, open(SRC + "/theories/" + f).read()) for e in m["expect"]))
        ad, fl, br = run(m, work)
        miss = [e for e in m["expect"] if not any(t == e or t.startswith(e + "_") for t in fl)]
        rec = {"name": m["name"], "definition": m["file"] + ": " + defname(m), "edit": m["old"].strip() + "  ->  " + m["new"].strip(),
               "claim_broken": m["claim"], "theorems_failed": sorted(fl), "theorems_tightened": m.get("tightened", []), "expected_but_survived": miss}
        if br: rec["build"] = str(br)
        if m.get("only"): rec["files_checked"] = m["only"]
        print(json.dumps({k: rec[k] for k in ("name", "theorems_failed", "expected_but_survived")} | ({"build": br} if br else {})), flush=True)
        if not br:
            with open(LOG, "a") as f: f.write(json.dumps(rec) + "\n")
    shutil.rmtree(work, ignore_errors=True)
