#!/usr/bin/env python3
"""Print Assumptions for every theorem of MANIFEST.json (after a build); refresh the list at the end of DESIGN.md."""
import json, os, re, subprocess, tempfile
root = os.path.dirname(os.path.dirname(os.path.abspath(__file__)))
th = {}
for f in sorted(os.listdir(os.path.join(root, "rocq/theories"))):
    if f.startswith("Prop") and f.endswith(".v"):
        for m in re.finditer(r"^Theorem\s+(C\d\d+_\w+)", open(os.path.join(root, "rocq/theories", f)).read(), re.M):
            th[m.group(1)] = f[:-2]
names = sorted(th)
src = "From Verif Require %s.\n" % " ".join(sorted(set(th.values())))
src += "".join("Print Assumptions Verif.%s.%s.\n" % (th[n], n) for n in names)
with tempfile.TemporaryDirectory() as d:
    p = os.path.join(d, "A.v")
    open(p, "w").write(src)
    out = subprocess.run(["coqc", "-Q", os.path.join(root, "rocq/theories"), "Verif", p],
                         capture_output=True, text=True, check=True).stdout
lines = out.strip().split("\n")
assert len(lines) == len(names) and all(l == "Closed under the global context" for l in lines), out
mark = "## Print Assumptions"
p = os.path.join(root, "DESIGN.md")
text = open(p).read().split(mark)[0]
text += mark + "\n\nFor each of the following theorems `Print Assumptions` answers *Closed under the global context*\n"
text += "(no axiom, of the standard library or otherwise). Refreshed by `tools/assumptions.py`.\n\n"
for f in sorted(set(th.values())):
    text += "* %s.v: %s\n" % (f, ", ".join("`%s`" % n for n in names if th[n] == f))
open(p, "w").write(text)
print(len(names), "theorems, all closed")
