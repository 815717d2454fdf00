#!/usr/bin/env python3
"""Write ASSUMPTIONS.md: what Print Assumptions says under each property theorem.
Needs an up-to-date build in rocq/."""
import re, subprocess, glob, os, tempfile
R = "/verif/rocq"
short = {"ClassicalDedekindReals.sig_forall_dec": "sig_forall_dec", "ClassicalDedekindReals.sig_not_dec": "sig_not_dec",
         "FunctionalExtensionality.functional_extensionality_dep": "functional_extensionality_dep", "Classical_Prop.classic": "classic"}
groups = {}
for f in [l.strip() for l in open(R + "/_CoqProject") if re.search(r"/Props\w+\.v$", l.strip())]:
    names = re.findall(r"^Print Assumptions (\S+)\.", open(f"{R}/{f}").read(), re.M)
    with tempfile.TemporaryDirectory() as d:
        out = subprocess.run(["coqc", "-q", "-Q", "theories", "Verif", "-o", d + "/" + os.path.basename(f) + "o", f], cwd=R, capture_output=True, text=True).stdout
    blocks = re.split(r"(?m)^(?=Axioms:|Closed under)", out)[1:]
    assert len(blocks) == len(names), (f, len(blocks), len(names))
    for n, b in zip(names, blocks):
        ax = [a for a in re.findall(r"(?m)^([A-Za-z0-9_.']+)\s*(?::|$)", b) if a != "Axioms"]
        groups.setdefault(tuple(sorted(short[a] for a in ax)), []).append(n)
with open("/verif/ASSUMPTIONS.md", "w") as o:
    o.write("# What `Print Assumptions` lists for each property theorem\n\nGenerated by `tools/assumptions.py`.  The four axioms are those of the Coq\nstandard library: `ClassicalDedekindReals.sig_forall_dec`,\n`ClassicalDedekindReals.sig_not_dec`,\n`FunctionalExtensionality.functional_extensionality_dep`, `Classical_Prop.classic`.\n")
    for ax in sorted(groups, key=len):
        o.write("\n## " + (", ".join(ax) if ax else "Closed under the global context (no axioms)") + "\n\n")
        for n in sorted(groups[ax]): o.write(f"* {n}\n")
