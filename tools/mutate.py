#!/usr/bin/env python3
"""Seeded wrong programs.  Each entry of mutants.json edits one definition of the model
in a scratch copy of /verif/rocq, rebuilds it (make -k) and appends one line to
/verif/seeded/LOG.jsonl.  Usage: mutate.py [ids...]  (default: those not in the log)"""
import json, os, re, subprocess, sys, shutil
V = "/verif"; BASE = "/tmp/mut/base"; WORK = "/tmp/mut/work"
J = os.environ.get("MJ", "3")
muts = json.load(open(f"{V}/seeded/mutants.json"))
log = f"{V}/seeded/LOG.jsonl"
done = {json.loads(l).get("id") for l in open(log) if l.strip()} if os.path.exists(log) else set()
want = sys.argv[1:] or [m["id"] for m in muts if m["id"] not in done]
def sh(c, **k): return subprocess.run(c, shell=True, capture_output=True, text=True, **k)
os.makedirs("/tmp/mut", exist_ok=True)
manifest = json.load(open(f"{V}/MANIFEST.json"))
names = sorted({t for c in manifest["claims"] for t in c["theorems"]})
where = {}
for f in os.listdir(f"{BASE}/theories"):
    if f.endswith(".v"):
        for m in re.finditer(r"^\s*(?:Theorem|Lemma|Example|Corollary)\s+([\w']+)", open(f"{BASE}/theories/{f}").read(), re.M):
            where.setdefault(m.group(1), f)
def definition(text, name):
    m = re.search(r"^(?:Definition|Fixpoint|Record|Global Instance)\s+" + re.escape(name) + r"(?![\w'])", text, re.M)
    assert m, name
    n = re.search(r"\n(?:\s*\n|\(\*\*|Definition|Fixpoint|End |Record|Inductive)", text[m.end():])
    return m.start(), m.end() + (n.start() if n else len(text))
def enclosing(f, line):
    L = open(f).read().split("\n")[:line]
    for s in reversed(L):
        m = re.match(r"\s*(?:Theorem|Lemma|Example|Corollary|Definition|Fixpoint|Global Instance|Local Instance|Instance)\s+([\w']+)", s)
        if m: return m.group(1)
    return "?"
for m in muts:
    if m["id"] not in want: continue
    sh(f"rm -rf {WORK} && cp -a {BASE} {WORK}")
    p = f"{WORK}/theories/{m['file']}"
    t = open(p).read()
    a, b = definition(t, m["def"])
    d = t[a:b]
    k = m.get("occ", 1)
    assert d.count(m["old"]) >= k, (m["id"], d.count(m["old"]))
    if "occ" not in m: assert d.count(m["old"]) == 1, (m["id"], d.count(m["old"]))
    i = -1
    for _ in range(k): i = d.index(m["old"], i + 1)
    d2 = d[:i] + m["new"] + d[i + len(m["old"]):]
    open(p, "w").write(t[:a] + d2 + t[b:])
    try: r = sh(f"cd {WORK} && timeout 1500 make -k -j{J}"); out = r.stdout + r.stderr
    except Exception as e: out = str(e)
    fails = []
    for e in re.finditer(r'File "\./theories/(\w+)\.v", line (\d+), characters [\d-]+:\nError', out):
        fails.append((e.group(1), enclosing(f"{WORK}/theories/{e.group(1)}.v", int(e.group(2)))))
    # built: .vo present and newer than its inputs = make -q would not remake; use the list of failed targets
    lost = []
    q = sh(f"cd {WORK} && make -n -k 2>/dev/null | grep -o 'theories/[A-Za-z]*\\.v' | sort -u").stdout.split()
    unb = {os.path.basename(x) for x in q}
    lost = [n for n in names if where.get(n) in unb]
    rec = {"id": m["id"], "file": m["file"], "definition": m["def"],
           "edit": f"{m['old'].strip()}  -->  {m['new'].strip() or '(nothing)'}" + (f"  (occurrence {k})" if "occ" in m else ""),
           "claim_broken": m["claim"],
           "first_failures": [f"{f}.{l}" for f, l in fails],
           "theorems_failed": lost if len(lost) < len(names) else f"all {len(names)} theorems of MANIFEST.json",
           "theorems_tightened": m.get("tightened", [])}
    if "timeout" in out or not fails and lost: rec["note"] = "rebuild did not finish"
    if not lost and not fails: rec["verdict"] = m.get("survives", "SURVIVED")
    open(log, "a").write(json.dumps(rec) + "\n")
    print(m["id"], rec["first_failures"], len(lost), flush=True)
