#!/usr/bin/env python3
"""Seeded-bug runner.  usage: seed.py mutations.json
Each mutation: {"file": "X.v", "old": "...", "new": "...", "definition": "...", "edit": "...", "claim": "Cxx: ..."}
In a scratch copy the edit is applied and everything is rebuilt.  A lemma whose proof no longer goes through is
admitted in the scratch copy only, so that the build continues; the theorems reported as failed are those that
then depend on an admitted lemma (Print Assumptions) or whose own proof fails."""
import json, os, re, shutil, subprocess, sys
SRC = "/verif/rocq"
BASE = "/tmp/scratch/base"   # snapshot taken when the run starts
SCR = "/tmp/scratch/rocq"

def sh(cmd, timeout=1200):
    try:
        p = subprocess.run(cmd, shell=True, cwd=SCR, stdout=subprocess.PIPE, stderr=subprocess.STDOUT, timeout=timeout, text=True)
        return p.returncode, p.stdout
    except subprocess.TimeoutExpired as e:
        return 1, (e.stdout or b"").decode() if isinstance(e.stdout, bytes) else (e.stdout or "")

def fresh():
    os.makedirs(os.path.dirname(SCR), exist_ok=True)
    shutil.rmtree(SCR, ignore_errors=True); shutil.copytree(BASE, SCR)

def deps(f):
    """files depending on f, in topological order, f first"""
    rc, out = sh("coqdep -Q theories Verif theories/*.v")
    d = {}
    for l in out.replace("\\\n", " ").splitlines():
        m = re.match(r"theories/(\w+)\.vo.*?:(.*)", l)
        if m:
            d[m.group(1)] = [x[9:-3] for x in m.group(2).split() if x.startswith("theories/") and x.endswith(".vo")]
    aff = {f[:-2]}
    changed = True
    while changed:
        changed = False
        for k, v in d.items():
            if k not in aff and any(x in aff for x in v):
                aff.add(k); changed = True
    order = []
    def visit(k):
        if k in order or k not in aff: return
        for x in d.get(k, []): visit(x)
        order.append(k)
    for k in sorted(aff): visit(k)
    return order

START = re.compile(r"^\s*(?:Local\s+|Global\s+)?(Lemma|Theorem|Corollary|Fact|Example|Remark|Definition|Fixpoint|Program|Instance)\s+([\w']+)")
def run(m):
    path = f"{SCR}/theories/{m['file']}"
    s = open(path).read()
    if s.count(m["old"]) < 1:
        return {"error": "old text not found"}
    open(path, "w").write(s.replace(m["old"], m["new"], m.get("count", 1)))
    order = deps(m["file"])
    broken, failed = [], []
    for k in order:
        n = 0
        while True:
            rc, out = sh(f"timeout 150 coqc -Q theories Verif theories/{k}.v")
            if rc == 0:
                break
            mm = re.search(r'File ".*?", line (\d+), characters', out[out.rfind("File "):]) if "Error" in out else None
            errs = re.findall(r'File "\./theories/%s\.v", line (\d+), characters[^\n]*\nError' % k, out) or re.findall(r'File "\S*%s\.v", line (\d+), characters[^\n]*\n(?:In environment|Error)' % k, out)
            if not errs:
                errs = re.findall(r'line (\d+), characters', out)[-1:]
            n += 1
            if n > 60:
                return {"error": f"gave up in {k}: {out[-300:]}"}
            fp = f"{SCR}/theories/{k}.v"
            L = open(fp).read().split("\n")
            if not errs:   # timeout: admit the last started proof? report
                return {"error": f"timeout or no location in {k}: {out[-300:]}"}
            ln = int(errs[-1]) - 1
            i = ln
            while i >= 0 and not START.match(L[i]): i -= 1
            j = ln
            while j < len(L) and not re.search(r"(Qed|Defined)\.\s*$", L[j]): j += 1
            name = START.match(L[i]).group(2) if i >= 0 else None
            p = i
            while p <= ln and "Proof." not in L[p] : p += 1
            if i < 0 or p > j or j >= len(L) or (p > ln):
                # Maybe the statement itself fails
                return {"error": f"statement error in {k} line {ln+1} ({name}): {out[-300:]}"}
            L[p] = L[p][:L[p].index("Proof.")] + "Proof. Admitted."
            for q in range(p + 1, j + 1): L[q] = ""
            open(fp, "w").write("\n".join(L))
            broken.append(f"{k}.{name}")
        if k.startswith("Prop_"):
            txt = open(f"{SCR}/theories/{k}.v").read()
            names = re.findall(r"Print Assumptions (\w+)\.", txt)
            blocks = re.split(r"(?=^Closed under|^Axioms:)", out, flags=re.M)[1:]
            bshort = {b.split(".")[1] for b in broken}
            for nme, b in zip(names, blocks):
                if nme in bshort or any(re.search(r"(^|\.|\b)%s\b" % re.escape(x), b) for x in bshort if not x.endswith("_hypotheses_met")):
                    failed.append(nme)
    return {"broken": broken, "failed": failed}

if __name__ == "__main__":
    shutil.rmtree(BASE, ignore_errors=True); shutil.copytree(SRC, BASE)
    for m in json.load(open(sys.argv[1])):
        fresh()
        r = run(m)
        print(m["definition"], "|", m["edit"], "|", json.dumps(r), flush=True)
        if "error" not in r:
            rec = {"definition": m["definition"], "edit": m["edit"], "claim": m["claim"], "failed": r["failed"],
                   "first_broken_lemmas": r["broken"][:6], "tightened": []}
            with open("/tmp/seed_results.jsonl", "a") as f: f.write(json.dumps(rec) + "\n")
