#!/usr/bin/env python3
"""Rewrite the section "Axioms per theorem" of DESIGN.md from Print Assumptions
of every theorem in MANIFEST.json (needs a built rocq/)."""
import json, os, re, subprocess, tempfile
ROOT = os.path.dirname(os.path.dirname(os.path.abspath(__file__)))
claims = json.load(open(f"{ROOT}/MANIFEST.json"))["claims"]
names = [t for c in claims for t in c["theorems"]]
where = {}
for f in sorted(os.listdir(f"{ROOT}/rocq/theories")):
    if f.startswith("P_") and f.endswith(".v"):
        for m in re.finditer(r"^Theorem (\w+)", open(f"{ROOT}/rocq/theories/{f}").read(), re.M):
            where[m.group(1)] = f[:-2]
with tempfile.TemporaryDirectory() as d:
    src = "\n".join(f"From Verif Require {m}." for m in sorted(set(where.values())))
    for n in names: src += f'\nGoal True. idtac "@@ {n}". Abort.\nPrint Assumptions {where[n]}.{n}.'
    open(f"{d}/ax.v", "w").write(src + "\n")
    r = subprocess.run(["coqc", "-q", "-Q", f"{ROOT}/rocq/theories", "Verif", f"{d}/ax.v"], capture_output=True, text=True)
    assert r.returncode == 0, r.stderr
groups = {}
for part in r.stdout.split("@@ ")[1:]:
    n, rest = part.split("\n", 1)
    ax = sorted(set(re.findall(r"^([A-Za-z_][\w.]*)\s*(?::|$)", rest.replace("Axioms:", ""), re.M)))
    if "Closed under the global context" in rest: ax = []
    groups.setdefault(tuple(ax), []).append(n)
s = open(f"{ROOT}/DESIGN.md").read().split("\n## Axioms per theorem")[0].rstrip("\n")
s += "\n\n## Axioms per theorem\n\nWhat `Print Assumptions` lists, as written by `tools/axioms.py`.\n\n| axioms | theorems |\n|---|---|\n"
for ax, ns in sorted(groups.items(), key=lambda x: len(x[0])):
    s += f"| {', '.join('`%s`' % a for a in ax) or 'none'} | {', '.join('`%s`' % n for n in ns)} |\n"
open(f"{ROOT}/DESIGN.md", "w").write(s)
