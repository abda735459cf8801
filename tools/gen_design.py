"""Write DESIGN.md (run after gen_assumptions.py)."""
import json, os, re
here = os.path.dirname(os.path.abspath(__file__))
root = os.path.dirname(here)
r = lambda p: open(os.path.join(root, p)).read()
props = [json.loads(l) for l in r("properties.jsonl").splitlines()]
claims = {c["property"]: c for c in json.loads(r("MANIFEST.json"))["claims"]}
th = os.path.join(root, "rocq", "theories")
where = {}
for f in sorted(os.listdir(th)):
    if f.endswith(".v"):
        for n in re.findall(r"^(?:Theorem|Lemma)\s+(C\d+_\w+)", open(os.path.join(th, f)).read(), re.M):
            where[n] = f
methods = json.loads(r("tools/methods.json"))
out = r("tools/design_head.md")
out += "## Properties: model, method, status\n\n"
for p in props:
    c = claims.get(p["id"])
    out += "### %s %s\n\n" % (p["id"], p["title"])
    out += "* code: %s\n" % "; ".join("`%s`" % a for a in p["anchors"])
    if p["id"] in methods:
        out += "* model and method: %s\n" % methods[p["id"]]
    if c:
        out += "* status: %s; theorems in %s: %s\n" % (c["status"], ", ".join("`%s`" % f for f in sorted({where[t] for t in c["theorems"]})), ", ".join("`%s`" % t for t in c["theorems"]))
        if c["note"]:
            out += "* scope: %s\n" % c["note"]
    out += "\n"
out += r("tools/findings.md")
out += r("tools/design_tail.md")
a = r("ASSUMPTIONS.md").split("\n\n", 2)[2]
out += "\n## Print Assumptions, theorem by theorem\n\n" + a.replace("\n## ", "\n### ").replace("## ", "### ", 1) if a.startswith("## ") else a
open(os.path.join(root, "DESIGN.md"), "w").write(out)
print(len(out))
