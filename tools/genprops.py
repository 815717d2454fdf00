#!/usr/bin/env python3
"""Expands tools/props/*.in into rocq/theories/Props*.v.

A line `@THM name lemma` becomes the theorem `name` with the statement of the
lemma `lemma` (looked up in rocq/theories/Proof*.v), closed by `exact lemma`."""
import re, glob, os, sys
root = os.path.dirname(os.path.dirname(os.path.abspath(__file__)))
stmts = {}
for f in glob.glob(os.path.join(root, 'rocq/theories/Proof*.v')):
    for m in re.finditer(r'^(?:Lemma|Theorem) (\w+)\s*:(.*?)\.\nProof\.', open(f).read(), re.M | re.S):
        stmts[m.group(1)] = m.group(2)
only = sys.argv[1:]
for f in sorted(glob.glob(os.path.join(root, 'tools/props/*.in'))):
    base = os.path.basename(f)[:-3]
    if only and base not in only: continue
    out = []
    for line in open(f):
        m = re.match(r'@THM (\w+) (\w+)', line)
        if m:
            n, l = m.groups()
            if l not in stmts: sys.exit(f'{base}: no lemma {l}')
            out.append(f'Theorem {n} :{stmts[l]}.\nProof. exact {l}. Qed.\nPrint Assumptions {n}.\n')
        else:
            out.append(line)
    path = os.path.join(root, 'rocq/theories', base + '.v')
    text = ''.join(out)
    if not os.path.exists(path) or open(path).read() != text:
        open(path, 'w').write(text)
