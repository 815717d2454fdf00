#!/bin/sh
# Replay the unit tests and doc examples of /repo against the model.
# Needs the built theories; writes only below a temporary directory.
here=$(cd "$(dirname "$0")" && pwd); th=$(cd "$here/../../rocq/theories" && pwd)
d=$(mktemp -d); trap 'rm -rf "$d"' EXIT
python3 - "$th" "$d" <<'PY'
import glob, os, re, sys
th, d = sys.argv[1:]
names, mods = [], []
for line in open(os.path.join(th, "..", "_CoqProject")):
    m = re.match(r"theories/(Model\w+)\.v", line.strip())
    if not m: continue
    mods.append(m.group(1))
    for x in re.findall(r"^\s*(?:Definition|Fixpoint)\s+(\w+)", open("%s/%s.v" % (th, m.group(1))).read(), re.M):
        names.append("%s.%s" % (m.group(1), x))
open(d + "/names", "w").write(" ".join(x.split(".")[1] for x in names))
open(d + "/Ext.v", "w").write("From Verif Require Import Arith %s.\nRequire Import Extraction.\nExtraction Language JSON.\nSet Extraction KeepSingleton.\nExtraction \"%s/model.json\" %s.\n" % (" ".join(mods), d, " ".join(names)))
PY
(cd "$d" && coqc -w none -Q "$th" Verif Ext.v >/dev/null) || exit 2
NAMES=$(cat "$d/names") python3 "$here/replay.py" "$d/model.json" "$@"
