"""Writes seeded/LOG.jsonl from the results of tools/mutate.py.
usage: python3 tools/seedlog.py results1.jsonl results2.jsonl ... > seeded/LOG.jsonl
Later results for a mutant replace earlier ones."""
import sys, json, os
sys.path.insert(0, os.path.dirname(__file__))
from mutants import MUTANTS

# what was done about a mutant that was not detected
TIGHTENED = {
    "append_swapped": "no theorem mentioned append and prepend; C65_append_prepend and C65_panics added",
    "split_flags": "no theorem mentioned the normalisation flags; C63_split_flags added",
    "normed_nan": "no theorem mentioned knots that are not numbers; C137_nan_knots and C137_merge added, which fail for this mutant",
}
res = {}
for f in sys.argv[1:]:
    for l in open(f):
        r = json.loads(l)
        if r.get("failed") is not None:
            res[r["name"]] = r
for m in MUTANTS:
    r = res.get(m["name"])
    if r is None:
        continue
    print(json.dumps({
        "name": m["name"],
        "definition": m["definition"],
        "edit": m["what"],
        "files": sorted({e[0] + ".v" for e in m["edits"]}),
        "breaks": m["breaks"],
        "failed_theorems": r["failed"],
        "failed_examples": r.get("examples", []),
        "first_failing_lemmas": r.get("admitted", []),
        "tightened": TIGHTENED.get(m["name"], m.get("note", "none")),
    }, ensure_ascii=False))
