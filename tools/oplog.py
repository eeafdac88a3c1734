"""Prints log lines for mutants made by replacing one operator or constant of a model file.
usage: python3 tools/oplog.py BUILT_THEORIES_DIR results.jsonl ...
Each build stops at the first proof that fails.  The theorems listed for a mutant are the
property theorems whose proofs use the failing lemma, according to the .glob files."""
import sys, json, re, glob, os, bisect

NOTES = {
    ("prefactor", "n0"): "equivalent: the index is at most n - k in every call, so no call reaches this branch",
    ("find_index", " - "): "equivalent: only more fuel for a loop that ends before",
    ("domain_knot", "vget v i"): "not detected; C164_knots added, which fails for this mutant",
    ("internal_knot", "vget v i"): "not detected; C164_knots added, which fails for this mutant",
}
D = sys.argv[1]
KIND = re.compile(r"^(prf|thm|def|lem)\s+(\d+):\d+\s+(\S+)\s+(\S+)$")
decls, uses = {}, {}
for f in glob.glob(D + "/*.glob"):
    mod = os.path.basename(f)[:-5]
    ds, rs = [], []
    for l in open(f):
        m = KIND.match(l)
        if m:
            ds.append((int(m.group(2)), m.group(4)))
        elif l[0] == "R":
            q = l.split()
            if len(q) == 5 and q[1].startswith("Verif."):
                rs.append((int(q[0][1:].split(":")[0]), q[1][6:], q[3]))
    ds.sort()
    src = open(D + "/" + mod + ".v", "rb").read()
    decls[mod] = (ds, src)
    at = [d[0] for d in ds]
    for pos, m2, name in rs:
        k = bisect.bisect_right(at, pos) - 1
        if k >= 0 and (m2, name) != (mod, ds[k][1]):
            uses.setdefault((m2, name.split(".")[-1]), set()).add((mod, ds[k][1].split(".")[-1]))

def lemma(mod, line):
    ds, src = decls[mod]
    off = sum(len(l) + 1 for l in src.split(b"\n")[:line - 1])
    end = off + len(src.split(b"\n")[line - 1])
    k = bisect.bisect_right([d[0] for d in ds], end) - 1
    return (mod, ds[k][1]) if k >= 0 else (mod, "?")

def above(x):
    seen, todo = {x}, [x]
    while todo:
        for y in uses.get(todo.pop(), ()):
            if y not in seen:
                seen.add(y)
                todo.append(y)
    return sorted(n for m, n in seen if m.startswith("P_") and re.match(r"C\d+_", n) and not n.endswith("_hypotheses"))

for f in sys.argv[2:]:
    for l in open(f):
        r = json.loads(l)
        if r["status"] == "invalid":
            continue
        o = {"name": "op_%d" % r["id"], "definition": r["defn"], "edit": "%s -> %s in: %s" % (r["old"].strip(), r["new"].strip(), r["text"]), "files": [r["file"] + ".v"], "result": r["status"]}
        if r["status"] == "killed":
            x = lemma(r["at"][0], int(r["at"][1]))
            o["first_failing_lemmas"] = [x[0] + "." + x[1]]
            t = above(x)
            o["theorems_through_it"] = len(t)
            o["failed_theorems"] = t[:6]
            o["tightened"] = "none"
        elif r["status"] == "timeout":
            o["first_failing_lemmas"] = [r["at"][0] if r["at"] else "?"]
            o["failed_theorems"] = []
            o["tightened"] = "none; a proof of this file does not end"
        else:
            o["failed_theorems"] = []
            o["tightened"] = NOTES.get((r["defn"], r["old"]), "open")
        print(json.dumps(o, ensure_ascii=False))
