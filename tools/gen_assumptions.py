"""Run Print Assumptions on every theorem of MANIFEST.json and write ASSUMPTIONS.md."""
import json, os, re, subprocess, collections
here = os.path.dirname(os.path.abspath(__file__))
root = os.path.dirname(here)
th = os.path.join(root, "rocq", "theories")
claims = json.load(open(os.path.join(root, "MANIFEST.json")))["claims"]
where = {}
for f in sorted(os.listdir(th)):
    if f.endswith(".v"):
        for n in re.findall(r"^(?:Theorem|Lemma)\s+(C\d\d_\w+)", open(os.path.join(th, f)).read(), re.M):
            where[n] = f[:-2]
names = [(c["property"], t) for c in claims for t in c["theorems"]]
bymod = collections.OrderedDict()
for p, t in names:
    bymod.setdefault(where[t], []).append(t)
out = {}
for mod, ts in bymod.items():
    src = "From Verif Require %s.\n" % mod
    for t in ts:
        src += 'Print Assumptions Verif.%s.%s.\n' % (mod, t)
    open("/tmp/asm.v", "w").write(src)
    r = subprocess.run(["coqc", "-w", "none", "-Q", th, "Verif", "/tmp/asm.v"], capture_output=True, text=True)
    parts = re.split(r"^(Axioms:|Closed under the global context)$", r.stdout, flags=re.M)
    assert len(parts) == 2 * len(ts) + 1, (mod, len(parts), len(ts), r.stderr[:300])
    for k, t in enumerate(ts):
        out[t] = re.findall(r"^([A-Za-z_][\w.']*)", parts[2 * k + 2], re.M)
missing = [t for _, t in names if t not in out]
groups = collections.OrderedDict()
for p, t in names:
    groups.setdefault(tuple(sorted(set(out.get(t, ["?"])))), []).append(t)
with open(os.path.join(root, "ASSUMPTIONS.md"), "w") as g:
    g.write("# Print Assumptions of every theorem\n\nGenerated by `tools/gen_assumptions.py` from the output of `Print Assumptions`.\n\n")
    for ax, ts in sorted(groups.items(), key=lambda x: len(x[0])):
        g.write("## %s\n\n" % ("Closed under the global context" if not ax else ", ".join("`%s`" % a for a in ax)))
        g.write(", ".join("`%s`" % t for t in ts) + "\n\n")
print(len(names), "theorems;", len(groups), "groups; missing", missing[:5], len(missing))
