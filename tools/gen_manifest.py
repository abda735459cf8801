#!/usr/bin/env python3
"""Single source for MANIFEST.json (run: python3 tools/gen_manifest.py).
Theorem names are collected from rocq/theories/*_props.v by their Cxx_ prefix."""
import json, os, re, glob
root = os.path.dirname(os.path.dirname(os.path.abspath(__file__)))
thms = {}
for f in sorted(glob.glob(os.path.join(root, "rocq/theories/*_props.v"))):
    for m in re.finditer(r"^(?:Theorem|Lemma)\s+((C\d+)_\w+)", open(f).read(), re.M):
        thms.setdefault(m.group(2), []).append(m.group(1))
# property -> (status, note); properties absent here but with theorems are "proved"
NOTES = json.load(open(os.path.join(root, "tools/notes.json")))
props = [json.loads(l)["id"] for l in open(os.path.join(root, "properties.jsonl"))]
claims = []
for p in props:
    ts = thms.get(p, [])
    st, note = NOTES.get(p, [None, ""])
    if not ts:
        if st == "not_applicable":
            claims.append(dict(property=p, status=st, theorems=[], note=note))
        continue
    if st is None:
        st = "partial" if any(t.endswith("_partial") for t in ts) else "proved"
    claims.append(dict(property=p, status=st, theorems=ts, note=note))
json.dump({"claims": claims}, open(os.path.join(root, "MANIFEST.json"), "w"), indent=1)
print(len(claims), "claims", sum(len(c["theorems"]) for c in claims), "theorems; missing:", [p for p in props if p not in thms])
