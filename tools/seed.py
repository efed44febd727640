#!/usr/bin/env python3
"""Seeded-bug tests. usage: seed.py mutants.json  -- each mutant: {file, definition, old, new, edit, claim, props}.
Copies rocq/ to a scratch directory, applies one edit to the model, rebuilds, and appends a line to seeded/LOG.jsonl.
theorems_failed: the statements at which coqc stops, and the property theorems that are not rebuilt as a consequence."""
import json, os, re, shutil, subprocess, sys
ROOT = os.path.join(os.path.dirname(os.path.abspath(__file__)), "..")
SC = "/tmp/seed_scratch"
def decl_at(path, line):
    name = None
    for i, l in enumerate(open(path), 1):
        if i > line: break
        m = re.match(r"\s*(?:Local )?(?:Theorem|Lemma|Example|Definition|Fixpoint|Corollary)\s+([\w']+)", l)
        if m: name = m.group(1)
    return name
def run(m):
    shutil.rmtree(SC, ignore_errors=True); subprocess.run(["cp", "-a", ROOT + "/rocq", SC], check=True)
    p = SC + "/theories/" + m["file"]
    s = open(p).read()
    if s.count(m["old"]) < 1: return None
    s = s.replace(m["old"], m["new"], 1) if not m.get("all") else s.replace(m["old"], m["new"])
    open(p, "w").write(s)
    subprocess.run("coq_makefile -f _CoqProject -o Makefile >/dev/null", shell=True, cwd=SC)
    r = subprocess.run("timeout 1500 make -k -j4 2>&1", shell=True, cwd=SC, capture_output=True, text=True)
    failed = []
    for f, ln in re.findall(r'File "\./theories/(\w+\.v)", line (\d+), [^\n]*\nError', r.stdout):
        failed.append("%s (%s)" % (decl_at(SC + "/theories/" + f, int(ln)), f))
    thms = []
    for f in sorted(os.listdir(SC + "/theories")):
        if re.search(r"Props\d?\.v$", f):
            vo = SC + "/theories/" + f + "o"
            src = SC + "/theories/" + f
            fresh = os.path.exists(vo) and not any(f == x.split("(")[1][:-1] for x in failed)
            # stale if any dependency failed: make leaves the old .vo, compare with model time
            if fresh and os.path.getmtime(vo) >= os.path.getmtime(p): continue
            if fresh and subprocess.run(["make", "-q", "theories/" + f + "o"], cwd=SC, capture_output=True).returncode == 0: continue
            for t in re.findall(r"^(?:Theorem|Example)\s+(C\d\d\w*)", open(src).read(), re.M):
                if any(t.startswith(q) for q in m["props"]): thms.append(t)
    return failed, thms
for m in json.load(open(sys.argv[1])):
    r = run(m)
    if r is None: print("NOMATCH", m["definition"], m["edit"]); continue
    failed, thms = r
    print(("KILLED " if failed else "SURVIVED "), m["definition"], "|", m["edit"], "|", failed[:4], len(thms), flush=True)
    if failed and not m.get("nolog"):
        with open(ROOT + "/seeded/LOG.jsonl", "a") as o:
            o.write(json.dumps(dict(definition=m["definition"], file="rocq/theories/" + m["file"], edit=m["edit"], claim_broken=m["claim"],
                 theorems_failed=failed + thms, theorems_tightened=m.get("tightened", []))) + "\n")
