#!/usr/bin/env python3
"""Runs mutants of the model in a scratch copy and logs which proofs break.
usage: mutate.py mutants.json   (list of {file, def, old, new, claim, theorems})"""
import json, os, re, subprocess, sys, shutil, time
SRC = os.environ.get("SEED_BASE", "/tmp/seedbase"); DST = os.environ.get("SEED", "/tmp/seed"); LOG = "/verif/seeded/LOG.jsonl"
def sh(c, t=3000):
    return subprocess.run(c, shell=True, stdout=subprocess.PIPE, stderr=subprocess.STDOUT, text=True, timeout=t).stdout
def lemma_at(path, line):
    ls = open(path).read().split("\n")[:line]
    for l in reversed(ls):
        m = re.match(r"\s*(?:Lemma|Theorem|Example|Definition|Fixpoint|Corollary)\s+([\w']+)", l)
        if m: return m.group(1)
    return "?"
muts = json.load(open(sys.argv[1]))
os.makedirs(DST, exist_ok=True)
for k, m in enumerate(muts):
    sh(f"rm -rf {DST}/rocq && cp -a {SRC} {DST}/rocq")
    p = f"{DST}/rocq/theories/{m['file']}"
    s = open(p).read()
    n = s.count(m["old"])
    if n != 1:
        print("BAD MUTANT", k, m["def"], "occurrences:", n); continue
    open(p, "w").write(s.replace(m["old"], m["new"]))
    t0 = time.time()
    out = sh(f"cd {DST}/rocq && nice make -k -j2 2>&1 | grep -v Warning")
    fails = []
    for f, l in re.findall(r'File "\./theories/([\w]+\.v)", line (\d+)[^\n]*\nError', out):
        fails.append(f"{f}:{lemma_at(f'{DST}/rocq/theories/{f}', int(l))}")
    notbuilt = sorted(f[:-2] for f in os.listdir(f"{DST}/rocq/theories") if f.startswith("Properties") and f.endswith(".v")
                 and (not os.path.exists(f"{DST}/rocq/theories/{f}o") or os.path.getmtime(f"{DST}/rocq/theories/{f}o") < t0) and fails)
    rec = dict(definition=f"{m['file']}: {m['def']}", edit=f"{m['old']}  ==>  {m['new']}", claim_broken=m["claim"],
               first_proofs_that_failed=fails, theorems_failed=m["theorems"] if fails else [],
               outcome="killed" if fails else "SURVIVED", tightened=[])
    open(LOG, "a").write(json.dumps(rec) + "\n")
    print(k, m["def"], rec["outcome"], fails, f"{time.time()-t0:.0f}s", flush=True)
