#!/usr/bin/env python3
"""Run wrong programs through the proofs.

For every mutant in mutants.py: copy the built development to a scratch
directory, edit the model, rebuild.  A proof that no longer goes through is
replaced by [Admitted] in the scratch copy so that everything after it can be
checked too.  At the end Print Assumptions tells which theorems of the manifest
still hold without any of the replaced proofs.

usage: [WORK=dir] mutate.py RESULTS.jsonl [NAME ...]     (needs /tmp/mut/base built, and
/tmp/mut/suggest.log, the build log with "Suggest Proof Using" set)
"""
import json, os, re, subprocess, sys, shutil
sys.path.insert(0, os.path.dirname(os.path.abspath(__file__)))

BASE, WORK = "/tmp/mut/base", os.environ.get("WORK", "/tmp/mut/work")
START = re.compile(r"^\s*(?:Local |Global |#\[[^\]]*\] *)*(Lemma|Theorem|Corollary|Example|Fact|Remark|Proposition)\s+([A-Za-z0-9_']+)")
LIMIT = 400

def usings():
    """section variables each proof uses, from the log of the unmodified build"""
    u, name = {}, None
    for l in open("/tmp/mut/suggest.log", errors="replace"):
        m = re.match(r"The proof of (\S+) should start", l)
        if m: name = m.group(1); continue
        m = re.match(r"Proof using (.*)\.\s*$", l)
        if m and name:
            u.setdefault(name, m.group(1).strip()); name = None
    return u
USING = usings()

def sh(cmd, **k):
    return subprocess.run(cmd, shell=True, capture_output=True, text=True, errors="replace", **k)

def admit(path, line):
    """replace the proof around [line]; returns its name, or None"""
    src = open(path).read().split("\n")
    i = line - 1
    while i >= 0 and not START.match(src[i]): i -= 1
    if i < 0: return None
    name = START.match(src[i]).group(2)
    j = i
    while j < len(src) and not re.search(r"(^|\s)Proof\b", src[j]): j += 1
    k = j
    while k < len(src) and not re.search(r"\b(Qed|Defined|Admitted)\.\s*(\(\*.*\*\)\s*)?$", src[k]): k += 1
    if j >= len(src) or k >= len(src) or not (j + 1 <= line <= k + 1):
        return None
    pre = re.split(r"(?:^|(?<=\s))Proof\b", src[j])[0]
    u = USING.get(name, "")
    using = f"Proof using {u}." if name in USING else "Proof."
    src[j:k + 1] = [pre + using + " Admitted."] + [""] * (k - j)
    open(path, "w").write("\n".join(src))
    return name

def stuck(path):
    """line of the sentence on which coqc runs out of time"""
    r = sh(f"cd {WORK} && timeout {LIMIT} coqc -time -q -Q theories Verif theories/{os.path.basename(path)}")
    end = 0
    for m in re.finditer(r"^Chars (\d+) - (\d+)", r.stdout, re.M): end = int(m.group(2))
    b = open(path, "rb").read()
    return b[:end + 2].count(b"\n") + 1

def run(mut):
    shutil.rmtree(WORK, ignore_errors=True)
    sh(f"cp -a {BASE} {WORK}")
    for f, old, new in mut["edits"]:
        p = f"{WORK}/theories/{f}.v"
        s = open(p).read()
        if s.count(old) != 1:
            return {"error": f"edit matches {s.count(old)} times in {f}: {old}"}
        open(p, "w").write(s.replace(old, new))
    admitted, lost = [], []
    for it in range(400):
        r = sh(f"cd {WORK} && make -k -j2 COQC='timeout {LIMIT} coqc' 2>&1")
        out = r.stdout
        if r.returncode == 0: break
        done = set()
        errs = re.findall(r'File "\./theories/(\w+)\.v", line (\d+), characters [^\n]*\n((?:[^\n]*\n){0,12})', out)
        errs = [(f, int(l), t) for f, l, t in errs if "Error" in t.split("File ")[0]]
        for f in re.findall(r"theories/(\w+)\.vo\] Error 124", out):
            errs.append((f, stuck(f"{WORK}/theories/{f}.v"), "timeout"))
        if not errs: return {"error": out[-1500:]}
        for f, l, t in errs:
            if f in done: continue
            done.add(f)
            n = admit(f"{WORK}/theories/{f}.v", l)
            if n is None:
                src = open(f"{WORK}/theories/{f}.v").read().split("\n")
                return {"error": f"{f}:{l}: {src[l-1]} :: {t[:400]}", "admitted": admitted}
            admitted.append(f"{f}.{n}")
    man = json.load(open(os.environ.get("MANIFEST", "/verif/MANIFEST.json")))
    thms = [(c["property"], t) for c in man["claims"] for t in c["theorems"]]
    files = [l.strip()[9:-2] for l in open(f"{WORK}/_CoqProject") if l.startswith("theories/")]
    with open(f"{WORK}/Check.v", "w") as g:
        g.write("From Verif Require " + " ".join(files) + ".\n")
        for f in files:
            if f.startswith("P_"): g.write(f"Import {f}.\n")
        for c, t in thms:
            g.write(f'Goal True. idtac "@@ {t}". Abort.\nPrint Assumptions {t}.\n')
    r = sh(f"cd {WORK} && timeout 1000 coqc -q -Q theories Verif Check.v")
    if r.returncode: return {"error": r.stderr[-800:], "admitted": admitted}
    bad = {a.split(".")[1] for a in admitted}
    failed = {}
    for blk in r.stdout.split("@@ ")[1:]:
        t, _, rest = blk.partition("\n")
        names = {n.split(".")[-1] for n in re.findall(r"^([A-Za-z0-9_.']+)\s*(?::|$)", rest, re.M)}
        if names & bad: failed[t] = sorted(names & bad)
    ex = [a for a in admitted if a.startswith("P_")]
    return {"admitted": admitted, "failed": sorted(failed), "examples": ex}

if __name__ == "__main__":
    from mutants import MUTANTS
    res = sys.argv[1]
    have = set()
    if os.path.exists(res): have = {json.loads(l)["name"] for l in open(res)}
    for m in MUTANTS:
        if sys.argv[2:] and m["name"] not in sys.argv[2:]: continue
        if not sys.argv[2:] and m["name"] in have: continue
        o = {"name": m["name"], **run(m)}
        with open(res, "a") as g: g.write(json.dumps(o) + "\n")
        print(o["name"], o.get("error", "")[:300], "admitted", len(o.get("admitted", [])), "failed", o.get("failed"), flush=True)
