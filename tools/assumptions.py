#!/usr/bin/env python3
"""Runs Print Assumptions for every theorem of MANIFEST.json and writes the result into section 5 of DESIGN.md."""
import json, os, re, subprocess, sys, tempfile
here = os.path.dirname(os.path.abspath(__file__))
root = os.path.join(here, "..")
theories = os.path.join(root, "rocq", "theories")
claims = json.load(open(os.path.join(root, "MANIFEST.json")))["claims"]
where = {}
for f in sorted(os.listdir(theories)):
    if f.endswith("Properties.v"):
        for m in re.finditer(r"^(?:Theorem|Lemma) (\w+)", open(os.path.join(theories, f)).read(), re.M):
            where[m.group(1)] = f[:-2]
mods = sorted(set(where[t] for c in claims for t in c["theorems"]))
result = {}
for m in mods:
    names = [t for c in claims for t in c["theorems"] if where[t] == m]
    with tempfile.TemporaryDirectory() as d:
        v = os.path.join(d, "q.v")
        with open(v, "w") as f:
            f.write("From Verif Require %s.\n" % m)
            for t in names:
                f.write("Print Assumptions Verif.%s.%s.\n" % (m, t))
        out = subprocess.run(["coqc", "-Q", theories, "Verif", v], capture_output=True, text=True)
        if out.returncode != 0:
            sys.exit(out.stderr)
        parts = re.split(r"(?m)^(?=Closed under|Axioms:)", out.stdout)
        parts = [" ".join(p.split()) for p in parts if p.strip()]
        assert len(parts) == len(names), (m, len(parts), len(names))
        result.update(zip(names, parts))
text = "## 5. Assumptions per theorem\n\nOutput of `Print Assumptions` (written by `tools/assumptions.py`).\n\n| Property | File | Theorem | Assumptions |\n|---|---|---|---|\n"
for c in claims:
    for t in c["theorems"]:
        text += "| %s | `%s.v` | `%s` | %s |\n" % (c["property"], where[t], t, result[t])
closed = sum(1 for r in result.values() if r == "Closed under the global context")
text += "\n%d theorems, %d closed under the global context.\n" % (len(result), closed)
p = os.path.join(root, "DESIGN.md")
s = open(p).read()
open(p, "w").write(s[:s.index("## 5. ")] + text)
print(len(result), closed)
