#!/usr/bin/env python3
"""Writes the per-property table of DESIGN.md (between the markers) from
properties.jsonl, MANIFEST.json and the HOW table below."""
import json, os
R = os.path.join(os.path.dirname(__file__), "..")
HOW = json.load(open(os.path.join(R, "tools", "how.json")))
props = [json.loads(l) for l in open(os.path.join(R, "properties.jsonl"))]
man = {c["property"]: c for c in json.load(open(os.path.join(R, "MANIFEST.json")))["claims"]}
out = []
for p in props:
    c = man[p["id"]]
    out.append(f"* **{p['id']} {p['title']}** ({c['status']}). {HOW.get(p['id'], '')}  \n  Theorems: " + ", ".join(f"`{t}`" for t in c["theorems"]) + "." + (f" Note: {c['note']}." if c["note"] else ""))
d = open(os.path.join(R, "DESIGN.md")).read()
a, b = "<!-- properties -->", "<!-- end properties -->"
i, j = d.index(a) + len(a), d.index(b)
open(os.path.join(R, "DESIGN.md"), "w").write(d[:i] + "\n" + "\n".join(out) + "\n" + d[j:])
